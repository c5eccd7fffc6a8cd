(* Runs of many calls: soundness, joined pairs, the recorded forest. *)
From Coq Require Import Permutation.
From Verif Require Import Base ListUtil UFSpec JAModel JATree JAProofs.
Unset Strict Implicit.

(* the edges inserted by the calls that took a step *)
Definition edge_of_job (j : job) : list (nat * nat) := match j with Insert u v => [(u, v)] | _ => [] end.
Definition inserted (js : list job) : list (nat * nat) := flat_map edge_of_job js.
Definition started (sched : list (nat * bool)) (js : list job) : list job :=
  flat_map (fun c => match nth_error js (fst c) with Some j => [j] | None => [] end) sched.
Definition in_range (n : nat) (js : list job) : Prop :=
  forall j, In j js -> match j with Insert u v | Query u v => u < n /\ v < n | Label i => i < n end.
(* initial parents: every vertex is a root or the child of a root *)
Definition flat (n : nat) (P0 : nat -> nat) : Prop := forall x, x < n -> P0 x < n /\ P0 (P0 x) = P0 x.

Section Sys.
  Variable n : nat.
  Variable two : bool.

  Definition edge_of (s : tstate) : option (nat * nat) :=
    match s with
    | First x y _ _ | Second x y _ _ | L1 x y _ _ | L2 x y _ _ _ _ | L3 x y _ _ _ _ _ | L4 x y _ _ _ _ _ _ _
    | L5 x y _ _ _ _ _ _ _ _ | L6 x y _ _ _ => Some (x, y)
    | _ => None
    end.
  Definition jok (key : nat -> nat) (m : mem) (j : job) (s : tstate) : Prop :=
    match j with
    | Insert x y => x < n /\ y < n /\
        ((edge_of s = Some (x, y) /\ tok n key m s) \/ (exists r, s = Done r /\ same (up m) x y))
    | Query _ _ => edge_of s = None /\ tok n key m s
    | Label i => i < n /\ ((exists f, s = Lab f /\ fok n key m i f) \/ (exists r, s = Done r /\ r < n /\ same (up m) r i))
    end.
  Lemma jok_tok key m j s : jok key m j s -> tok n key m s.
  Proof.
    destruct j; simpl.
    - intros (_ & _ & [[_ H]|(r & -> & _)]); simpl; auto.
    - now intros [_ H].
    - intros (Hi & [(f & -> & H)|(r & -> & H)]); simpl; eauto.
  Qed.
  Lemma jok_later key m key' m' j s : later n key m key' m' -> jok key m j s -> jok key' m' j s.
  Proof.
    intros L. destruct j; simpl.
    - intros (A & B & [[C D]|(r & -> & D)]); split; auto; split; auto.
      + left. split; auto. eapply tok_later; eauto.
      + right. exists r. split; auto. now apply (l_same L).
    - intros [A B]. split; auto. eapply tok_later; eauto.
    - intros (A & [(f & -> & H)|(r & -> & H & H')]); split; auto.
      + left. exists f. split; auto. eapply fok_later; eauto.
      + right. exists r. split; auto. split; auto. now apply (l_same L).
  Qed.

  Lemma tstep_edge coin m s m' s' : tstep n two coin m s = (m', s') ->
    edge_of s' = edge_of s \/ s' = Fault \/ (exists x y u f r, s = Second x y u f /\ s' = Done r /\ fstep two m f = (m', inr u)).
  Proof.
    unfold tstep. destruct (negb (is_done s) && (n <=? taddr s)); [intros E; injection E as <- <-; auto|].
    destruct s; simpl; try (intros E; injection E as <- <-; auto; fail).
    - destruct (fstep two m f) as [m1 [f'|r]]; intros E; injection E as <- <-; auto.
    - destruct (fstep two m f) as [m1 [f'|r]] eqn:F; intros E; injection E as <- <-; auto.
      destruct (Nat.eqb_spec u r) as [->|Hn]; auto. right. right. exists x, y, r, f, 0. auto.
    - intros E. injection E as <- <-. destruct (negb tu || negb tv); auto. destruct (ru <? rv); auto.
      destruct (rv <? ru); auto. destruct (u <? v); auto.
    - destruct (holds m a ep er true); intros E; [|injection E as <- <-; auto]. destruct nb; injection E as <- <-; auto.
    - destruct (fstep two m f) as [m1 [f'|r]]; intros E; injection E as <- <-; auto.
    - destruct (fstep two m f) as [m1 [f'|r]]; intros E; injection E as <- <-; auto.
    - destruct (fstep two m f) as [m1 [f'|r]]; intros E; injection E as <- <-; auto.
  Qed.

  Lemma jstep_ok key m j s coin m' s' : good n key m -> jok key m j s -> tstep n two coin m s = (m', s') ->
    exists key', good n key' m' /\ later n key m key' m' /\ jok key' m' j s' /\
      (trees_kept n m m' \/ linked_by n m m' s s') /\
      (ed m' = ed m \/ exists x y u v a, s = L6 x y u v a /\ m' = set_edge m a (x, y)).
  Proof.
    intros G J H. pose proof (jok_tok J) as T.
    destruct (tstep_ok G T H) as (key' & G' & L & T' & R & D).
    exists key'. split; auto. split; auto. split; [|split; auto].
    assert (Hnf : s' <> Fault) by (intros ->; exact T').
    destruct j as [x y|x y|i]; simpl in J |- *.
    - destruct J as (Hx & Hy & [[E _]|(r & -> & S)]); split; auto; split; auto.
      + destruct (tstep_edge H) as [E'|[E'|(x' & y' & u & f & r & -> & -> & F)]]; [left; split; auto; congruence|congruence|].
        simpl in E. injection E as -> ->. right. exists r. split; auto.
        destruct T as (_ & _ & Hu & Su & Fo). destruct (fstep_ok G Hy Fo F) as (_ & Q & _ & Hr & Sr & _).
        eapply same_trans; [|exact Sr]. apply same_sym. now apply (l_same L).
      + right. exists r. unfold tstep in H. simpl in H. injection H as <- <-. split; auto.
    - destruct J as [E _]. split; auto. destruct (tstep_edge H) as [E'|[E'|(x' & y' & u & f & r & -> & -> & F)]]; auto; congruence.
    - destruct J as (Hi & [(f & -> & Fo)|(r & -> & Hr & Sr)]); split; auto.
      + unfold tstep in H. assert (Ha : negb (is_done (Lab f)) && (n <=? taddr (Lab f)) = false).
        { simpl. apply Nat.leb_gt. now apply (fok_addr Fo). }
        rewrite Ha in H. destruct (fstep two m f) as [m1 z] eqn:F.
        destruct (fstep_ok G Hi Fo F) as (G1 & Q & _ & Z). injection H as <- <-. destruct z as [f'|r].
        * left. exists f'. split; auto. destruct T' as (x & Hx & F').
          clear - Z L Q Hi G. (* the same memory, key' instead of key *)
          pose proof (@quiet_later n key m m1 Q) as L0.
          assert (L1 : later n key m1 key' m1).
          { split.
            - apply (l_key L).
            - intros y Hy E. rewrite (q_rt Q) in E. split; [now rewrite (q_rt Q)|]. now apply (l_linked L).
            - auto. }
          eapply fok_later; eauto.
        * right. exists r. destruct Z as (Z1 & Z2 & _). auto.
      + right. exists r. unfold tstep in H. simpl in H. injection H as <- <-. auto.
  Qed.

  (* -- soundness ----------------------------------------------------------------------------- *)
  Section Sound.
    Variable C : nat -> nat -> Prop.
    Hypothesis Csym : forall x y, C x y -> C y x.
    Hypothesis Ctrans : forall x y z, C x y -> C y z -> C x z.
    Definition sound (m : mem) : Prop := forall x y, x < n -> y < n -> same (up m) x y -> C x y.

    Lemma sound_step key m m' s s' : good n key m -> sound m ->
      (forall x y, edge_of s = Some (x, y) -> C x y) ->
      trees_kept n m m' \/ linked_by n m m' s s' -> sound m'.
    Proof.
      intros G HS He [[K _]|(x & y & u & v & a & c & -> & Ea & Ea' & Ha & Hc & Hx & Hy & Hac & (ep & er & nr & ->) & R)] p q Hp Hq (r & A & B).
      - destruct (rooted_ex (good_tree G) Hp) as (rp & Hrp & Rp). destruct (rooted_ex (good_tree G) Hq) as (rq & Hrq & Rq).
        pose proof (rooted_det A (K _ Hp _ Rp)). pose proof (rooted_det B (K _ Hq _ Rq)). apply HS; auto. exists r. split; congruence.
      - destruct (rooted_ex (good_tree G) Hp) as (rp & Hrp & Rp). destruct (rooted_ex (good_tree G) Hq) as (rq & Hrq & Rq).
        destruct (rooted_ex (good_tree G) Hc) as (s & Hs & Rs). destruct (R s Rs) as [Hsa R'].
        pose proof (rooted_det A (R' _ Hp _ Rp)) as E1. pose proof (rooted_det B (R' _ Hq _ Rq)) as E2.
        assert (Ra : rooted (up m) a a) by (apply r_here, up_root; auto).
        assert (Cac : C a c).
        { specialize (He x y eq_refl). destruct Hac as [[S1 S2]|[S1 S2]].
          - apply Ctrans with x; [apply HS; auto|]. apply Ctrans with y; auto.
          - apply Ctrans with y; [apply HS; auto|]. apply Ctrans with x; auto. }
        assert (Cs : forall z r, z < n -> r < n -> rooted (up m) z r -> C z r).
        { intros z r' Hz Hr' Rz. apply HS; auto. exists r'. split; auto. apply r_here. eapply rooted_fix; eauto. }
        assert (Cas : C a s) by (apply Ctrans with c; auto).
        destruct (Nat.eqb_spec rp a) as [->|N1], (Nat.eqb_spec rq a) as [->|N2].
        + apply Ctrans with a; auto.
        + assert (rq = s) as -> by congruence. apply Ctrans with a; auto. apply Ctrans with s; auto.
        + assert (rp = s) as -> by congruence. apply Ctrans with s; auto. apply Ctrans with a; auto.
        + assert (rp = rq) as -> by congruence. apply Ctrans with rq; auto.
    Qed.
  End Sound.

  (* -- the whole system ---------------------------------------------------------------------- *)
  Definition inv (js : list job) (key : nat -> nat) (s : sys) : Prop :=
    good n key (fst s) /\ Forall2 (jok key (fst s)) js (snd s).

  Lemma Forall2_nth {A B} (R : A -> B -> Prop) l1 l2 t b : Forall2 R l1 l2 -> nth_error l2 t = Some b ->
    exists a, nth_error l1 t = Some a /\ R a b.
  Proof.
    intros F. revert t. induction F as [|x y l1 l2 H F IH]; intros [|t] E; simpl in *; try discriminate.
    - injection E as <-. eauto.
    - auto.
  Qed.
  Lemma Forall2_nth' {A B} (R : A -> B -> Prop) l1 l2 t a : Forall2 R l1 l2 -> nth_error l1 t = Some a ->
    exists b, nth_error l2 t = Some b /\ R a b.
  Proof.
    intros F. revert t. induction F as [|x y l1 l2 H F IH]; intros [|t] E; simpl in *; try discriminate.
    - injection E as <-. eauto.
    - auto.
  Qed.
  Lemma Forall2_lset {A B} (R R' : A -> B -> Prop) l1 l2 t a b : (forall x y, R x y -> R' x y) -> Forall2 R l1 l2 ->
    nth_error l1 t = Some a -> R' a b -> Forall2 R' l1 (lset l2 t b).
  Proof.
    intros HR F. revert t. induction F as [|x y l1 l2 H F IH]; intros [|t] E Hab; simpl in *; try discriminate.
    - injection E as ->. constructor; auto. clear - HR F. induction F; constructor; auto.
    - constructor; auto.
  Qed.

  Lemma sys_step_ok js key s c : inv js key s ->
    exists key', inv js key' (sys_step n two s c) /\ later n key (fst s) key' (fst (sys_step n two s c)) /\
      (sys_step n two s c = s \/
       exists j st st', nth_error js (fst c) = Some j /\ nth_error (snd s) (fst c) = Some st /\
         jok key (fst s) j st /\ tstep n two (snd c) (fst s) st = (fst (sys_step n two s c), st') /\
         snd (sys_step n two s c) = lset (snd s) (fst c) st' /\
         (trees_kept n (fst s) (fst (sys_step n two s c)) \/ linked_by n (fst s) (fst (sys_step n two s c)) st st') /\
         (ed (fst (sys_step n two s c)) = ed (fst s) \/
          exists x y u v a, st = L6 x y u v a /\ fst (sys_step n two s c) = set_edge (fst s) a (x, y))).
  Proof.
    intros [G F]. unfold sys_step. destruct (nth_error (snd s) (fst c)) as [st|] eqn:E.
    - destruct (Forall2_nth F E) as (j & Ej & J). destruct (tstep n two (snd c) (fst s) st) as [m' st'] eqn:H.
      destruct (jstep_ok G J H) as (key' & G' & L & J' & R & D). exists key'. split; [split; auto|].
      + simpl. apply (@Forall2_lset _ _ (jok key (fst s)) (jok key' m') js (snd s) (fst c) j st'); auto. intros. eapply jok_later; eauto.
      + split; auto. right. exists j, st, st'. simpl. auto 10.
    - exists key. split; [split; auto|]. split; [apply later_refl|auto].
  Qed.

  Lemma exec_inv js : forall sched s key, inv js key s ->
    exists key', inv js key' (exec n two sched s) /\ later n key (fst s) key' (fst (exec n two sched s)).
  Proof.
    induction sched as [|c sched IH]; intros s key I; simpl.
    - exists key. split; auto. apply later_refl.
    - destruct (sys_step_ok c I) as (k1 & I1 & L1 & _). destruct (IH _ _ I1) as (k2 & I2 & L2).
      exists k2. split; auto. eapply later_trans; eauto.
  Qed.

  Lemma exec_sound (C : nat -> nat -> Prop) js : (forall x y, C x y -> C y x) -> (forall x y z, C x y -> C y z -> C x z) ->
    forall sched s key, inv js key s -> sound C (fst s) ->
    (forall u v, In (u, v) (inserted (started sched js)) -> C u v) -> sound C (fst (exec n two sched s)).
  Proof.
    intros C2 C3. induction sched as [|c sched IH]; intros s key I S HC; simpl; auto.
    assert (HC' : forall u v, In (u, v) (inserted (started sched js)) -> C u v).
    { intros u v H. apply HC. unfold started, inserted in *. simpl. rewrite flat_map_app. apply in_or_app. auto. }
    destruct (sys_step_ok c I) as (k1 & I1 & L1 & [E|(j & st & st' & Ej & Est & J & Ht & _ & R & _)]).
    - rewrite E. eapply IH; eauto.
    - eapply IH; eauto. eapply (@sound_step C C2 C3 key (fst s) _ st st'); eauto; [apply I|].
      intros x y He. apply HC. unfold started, inserted. simpl. rewrite flat_map_app. apply in_or_app. left.
      rewrite Ej. simpl. rewrite app_nil_r.
      destruct j as [u v|u v|i]; simpl in J.
      + destruct J as (_ & _ & [[J _]|(r & -> & _)]); [|discriminate]. assert ((u, v) = (x, y)) by congruence. simpl. auto.
      + destruct J; congruence.
      + destruct J as (_ & [(f & -> & _)|(r & -> & _)]); discriminate.
  Qed.

  (* -- the initial state --------------------------------------------------------------------- *)
  Definition key0 (P0 : nat -> nat) (x : nat) : nat := if x =? P0 x then 1 else 0.
  Lemma good0 P0 E0 : flat n P0 -> good n (key0 P0) (initialize P0 E0).
  Proof.
    intros H. split; simpl; unfold key0.
    - intros x Hx. destruct (x =? P0 x); lia.
    - intros x Hx ->. auto.
    - intros x Hx E. destruct (H x Hx) as [A B]. split; auto. left. cbv beta. rewrite E, B, Nat.eqb_refl. lia.
  Qed.
  Lemma start_ok key m js : good n key m -> in_range n js -> inv js key (init m js).
  Proof.
    intros G Hr. split; auto. simpl. unfold init. simpl.
    assert (X : forall x, x < n -> same (up m) x x) by (intros; eapply same_refl; eauto using good_tree).
    revert Hr. induction js as [|j js IH]; intros Hr; simpl; constructor.
    - specialize (Hr j (or_introl eq_refl)). destruct j; simpl in *.
      + destruct Hr. split; auto. split; auto. left. auto 10.
      + destruct Hr. split; auto. split; auto. exists u. simpl. auto.
      + split; auto. left. exists (F0 i). simpl. auto.
    - apply IH. intros j' Hj. apply Hr. now right.
  Qed.
  Lemma up0 P0 E0 x : up (initialize P0 E0) x = P0 x.
  Proof. unfold up. simpl. destruct (Nat.eqb_spec x (P0 x)); auto. Qed.
  Lemma rooted0 P0 E0 x r : flat n P0 -> x < n -> rooted (up (initialize P0 E0)) x r -> r = P0 x.
  Proof.
    intros H Hx R. destruct (H x Hx) as [A B].
    apply (rooted_det R). apply rooted_up. rewrite up0. apply r_here. now rewrite up0.
  Qed.

  (* -- labels -------------------------------------------------------------------------------- *)
  Definition lab_ok (m : mem) (s : tstate) : Prop :=
    (exists f, s = Lab f /\ forall b u r v, f = S4 b u r v true -> rt m v = true) \/ (exists r, s = Done r /\ rt m r = true).
  Lemma fstep_rt m f m' z x : fstep two m f = (m', z) -> rt m' x = rt m x.
  Proof.
    destruct f; simpl; intros E; try (injection E as <- <-; auto; fail).
    destruct (holds m u v r false) eqn:H; injection E as <- <-; auto.
    apply holds_iff in H as (_ & _ & H). simpl. destruct (Nat.eq_dec x u) as [->|Hx]; [now rewrite fset_same|now rewrite fset_other].
  Qed.
  Lemma lab_step m s coin m' s' : lab_ok m s -> taddr s < n \/ is_done s = true -> tstep n two coin m s = (m', s') ->
    lab_ok m' s' /\ forall x, rt m' x = rt m x.
  Proof.
    intros Hs Ha H. unfold tstep in H.
    assert (Hf : negb (is_done s) && (n <=? taddr s) = false).
    { destruct Ha as [Ha| ->]; auto. destruct (is_done s); auto. simpl. now apply Nat.leb_gt. }
    rewrite Hf in H. destruct Hs as [(f & -> & Hs)|(r & -> & Hs)].
    - destruct (fstep two m f) as [m1 z] eqn:F. pose proof (fun x => @fstep_rt m f m1 z x F) as Hrt.
      injection H as <- <-. split; auto. destruct z as [f'|r].
      + left. exists f'. split; auto. intros b u r v ->. rewrite Hrt.
        destruct f; simpl in F; try (injection F as <- F; discriminate).
        * destruct (rt m u0); [discriminate|]. destruct two; discriminate.
        * injection F as <- <- <- <- F. subst v0. auto.
        * destruct isr; discriminate.
        * destruct b0; discriminate.
      + right. exists r. split; auto. rewrite Hrt. destruct f; simpl in F; try discriminate.
        * destruct (rt m u) eqn:E; [|destruct two; discriminate]. injection F as <- <-. auto.
        * destruct isr; [|discriminate]. injection F as <- <-. eapply Hs; reflexivity.
    - injection H as <- <-. split; auto. right. eauto.
  Qed.
  Lemma labs_ok js : forall sched s key, inv js key s ->
    Forall (lab_ok (fst s)) (snd s) ->
    Forall (lab_ok (fst (exec n two sched s))) (snd (exec n two sched s)) /\
    forall x, rt (fst (exec n two sched s)) x = rt (fst s) x.
  Proof.
    induction sched as [|c sched IH]; intros s key I F; simpl; auto.
    destruct (sys_step_ok c I) as (k1 & I1 & L1 & [E|(j & st & st' & Ej & Est & J & Ht & El & R & _)]).
    - rewrite E. eapply IH; eauto.
    - assert (Hst : lab_ok (fst s) st) by (rewrite Forall_forall in F; apply F; eapply nth_error_In; eauto).
      destruct (@lab_step (fst s) st (snd c) (fst (sys_step n two s c)) st') as [H1 H2]; auto.
      { destruct (is_done st) eqn:E; auto. left. eapply tok_addr; eauto. eapply jok_tok; eauto. }
      destruct (IH (sys_step n two s c) k1) as [A B]; auto.
      + rewrite El. rewrite Forall_forall in *. intros st1 Hin.
        apply In_nth_error in Hin as (t & Hin).
        destruct (Nat.eq_dec t (fst c)) as [->|Htc].
        * rewrite nth_error_lset_same in Hin by (apply nth_error_Some; congruence). injection Hin as <-. auto.
        * rewrite nth_error_lset_other in Hin by auto. apply nth_error_In in Hin. apply F in Hin.
          destruct Hin as [(f & -> & Hf)|(r & -> & Hr)]; [left; exists f; split; auto; intros; rewrite H2; eapply Hf; eauto|right; exists r; rewrite H2; auto].
      + split; auto. intros x. rewrite B. auto.
  Qed.
End Sys.
