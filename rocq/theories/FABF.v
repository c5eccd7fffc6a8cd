(* Proofs about Bellman-Ford. *)
From Coq Require Import ZArith ListDec.
From Verif Require Import Base ListUtil VSModel VSSpec VSProofs EMModel EMSpec EMPar EMModes EMProps EMPush FAModel FASpec FAProofs.

(* None is infinity *)
Definition ole (a b : option Z) : Prop :=
  match a, b with _, None => True | None, Some _ => False | Some x, Some y => (x <= y)%Z end.
Lemma ole_refl a : ole a a. Proof. destruct a; simpl; auto. lia. Qed.
Lemma ole_trans a b c : ole a b -> ole b c -> ole a c.
Proof. destruct a, b, c; simpl; try easy. lia. Qed.
Lemma ole_antisym a b : ole a b -> ole b a -> a = b.
Proof. destruct a, b; simpl; try easy. intros. f_equal. lia. Qed.
Lemma oeqb_eq a b : oeqb a b = true <-> a = b.
Proof.
  destruct a, b; simpl; try (split; congruence). rewrite Z.eqb_eq. split; congruence.
Qed.
Lemma bless_spec a c : bless a c = true <-> ole (Some a) c /\ c <> Some a.
Proof.
  destruct c as [c|]; simpl; [|split; [intros; split; [auto|discriminate]|auto]].
  rewrite Z.ltb_lt. split; [intros; split; [lia|intros E; injection E; lia]|].
  intros [H1 H2]. destruct (Z.eq_dec a c) as [->|]; [congruence|lia].
Qed.
Lemma bless_false a c : bless a c = false -> ole c (Some a).
Proof. destruct c as [c|]; simpl; [|discriminate]. rewrite Z.ltb_ge. auto. Qed.

Section Machine.
  Variable wt : nat -> nat -> Z.
  Variable sp0 : nat -> option Z.
  Variable atts : list attempt.
  Variable val : nat -> Z -> Prop.
  Definition aw (a : attempt) : Z := wt (src a) (snd (tag a)).
  Hypothesis Hval : forall a x, In a atts -> val (src a) x -> val (dst a) (x + aw a).
  Hypothesis Hfin0 : forall a, In a atts -> sp0 (src a) <> None.

  Definition carries (sp : nat -> option Z) (a : attempt) (new : Z) : Prop :=
    exists x, new = (x + aw a)%Z /\ ole (sp (src a)) (Some x) /\ ole (Some x) (sp0 (src a)) /\ val (src a) x.
  Definition relaxed (sp : nat -> option Z) (a : attempt) : Prop :=
    exists x, ole (sp (src a)) (Some x) /\ ole (Some x) (sp0 (src a)) /\ ole (sp (dst a)) (Some (x + aw a)%Z).
  Definition th_ok (sp : nat -> option Z) (th : bthread) : Prop :=
    (forall a, In a (btodo th) -> In a atts) /\
    match bpcs th with
    | BRead => True
    | BLoad new => exists a r, btodo th = a :: r /\ carries sp a new
    | BCas new cur => exists a r, btodo th = a :: r /\ carries sp a new /\ bless new cur = true
    | BFlag => exists a r, btodo th = a :: r /\ relaxed sp a /\ sp (dst a) <> sp0 (dst a)
    end.
  Definition flagging (th : bthread) (v : nat) : Prop := bpcs th = BFlag /\ exists a r, btodo th = a :: r /\ dst a = v.

  Record RInv (s : bstate) : Prop := {
    r_th : forall th, In th (bthr s) -> th_ok (bsp s) th;
    r_mono : forall v, ole (bsp s v) (sp0 v);
    r_val : forall v x, bsp s v = Some x -> val v x;
    r_low : forall v, bsp s v <> sp0 v -> bvis s v = true \/ exists th, In th (bthr s) /\ flagging th v;
    r_vis : forall v, bvis s v = true <-> exists a, In a (blog s) /\ dst a = v;
    r_log : forall a, In a (blog s) -> In a atts /\ bsp s (dst a) <> sp0 (dst a);
    r_nd : NoDup (map dst (blog s));
    r_ov : boverflow s = false;
    r_cov : forall a, In a atts -> relaxed (bsp s) a \/ exists th, In th (bthr s) /\ In a (btodo th) }.

  Lemma carries_mono sp sp' a new : (forall v, ole (sp' v) (sp v)) -> carries sp a new -> carries sp' a new.
  Proof. intros H (x & A & B & C & D). exists x. repeat split; auto. eapply ole_trans; eauto. Qed.
  Lemma relaxed_mono sp sp' a : (forall v, ole (sp' v) (sp v)) -> relaxed sp a -> relaxed sp' a.
  Proof. intros H (x & A & B & C). exists x. repeat split; auto; eapply ole_trans; eauto. Qed.

  Lemma rstep s t : RInv s -> RInv (bstep wt s t).
  Proof.
    intros HI. unfold bstep. destruct (nth_error (bthr s) t) as [th|] eqn:Et; auto.
    assert (Hth : In th (bthr s)) by (eapply nth_error_In; eauto).
    destruct (nth_error_split' _ _ Et) as (l1 & l2 & El & Hl1).
    assert (Hset : forall x, lset (bthr s) t x = l1 ++ x :: l2).
    { intros x. rewrite El, <- Hl1. apply lset_app_mid. }
    destruct (btodo th) as [|a rest] eqn:Etd; auto.
    destruct (r_th HI th Hth) as [Hsub Hpc]. rewrite Etd in Hsub, Hpc.
    assert (Ha : In a atts) by (apply Hsub; now left).
    assert (Hin : forall th' x, In x (l1 ++ th' :: l2) -> x = th' \/ In x (bthr s)).
    { intros th' x Hx. rewrite El. apply in_app_iff in Hx as [Hx|[Hx|Hx]]; auto; right; apply in_app_iff; auto. right. now right. }
    assert (Hout : forall th' x, In x (bthr s) -> x = th \/ In x (l1 ++ th' :: l2)).
    { intros th' x Hx. rewrite El in Hx. apply in_app_iff in Hx as [Hx|[Hx|Hx]]; auto; right; apply in_app_iff; auto. right. now right. }
    assert (Hmid : forall th', In th' (l1 ++ th' :: l2)) by (intros; apply in_app_iff; right; now left).
    (* a step that changes only the thread *)
    assert (Hkeep : forall th', th_ok (bsp s) th' -> bpcs th <> BFlag ->
              (forall x, In x (btodo th) -> In x (btodo th') \/ relaxed (bsp s) x) ->
              RInv {| bsp := bsp s; bvis := bvis s; blog := blog s; boverflow := boverflow s; bthr := lset (bthr s) t th' |}).
    { intros th' H1 H2 H3. rewrite Hset. destruct HI as [I1 I2 I3 I4 I5 I6 I7 I8 I9]. split; simpl; auto.
      - intros x Hx. apply Hin in Hx as [->|Hx]; auto.
      - intros v Hv. destruct (I4 v Hv) as [X|(u & Hu & Hf)]; auto. right.
        destruct (Hout th' u Hu) as [->|Hu']; [destruct Hf; congruence|]. exists u. auto.
      - intros x Hx. destruct (I9 x Hx) as [X|(u & Hu & Hxu)]; auto.
        destruct (Hout th' u Hu) as [->|Hu']; [|right; exists u; auto].
        destruct (H3 x Hxu) as [X|X]; auto. right. exists th'. auto. }
    assert (Hrest : forall x, In x rest -> In x atts) by (intros; apply Hsub; now right).
    destruct (bpcs th) as [|new|new cur|] eqn:Epc.
    - (* read the source *)
      destruct (bsp s (src a)) as [x|] eqn:Ex.
      + apply Hkeep; try congruence; [|intros y Hy; left; cbn [btodo]; rewrite <- Etd; exact Hy].
        split; simpl; [auto|]. exists a, rest. split; auto. exists x. split; auto. rewrite Ex.
        split; [apply ole_refl|]. split; [rewrite <- Ex; apply (r_mono HI)|apply (r_val HI); auto].
      + exfalso. pose proof (r_mono HI (src a)) as X. rewrite Ex in X. apply (Hfin0 a Ha).
        destruct (sp0 (src a)); auto. destruct X.
    - (* load the target *)
      destruct Hpc as (a' & r & E & Hc). injection E as <- <-.
      destruct (bless new (bsp s (dst a))) eqn:Eb.
      + apply Hkeep; try congruence; [|intros y Hy; left; cbn [btodo]; rewrite <- Etd; exact Hy].
        split; simpl; [auto|]. exists a, rest. auto.
      + apply Hkeep; try congruence.
        * split; simpl; auto.
        * rewrite Etd. intros y [<-|Hy]; [|left; auto]. right.
          destruct Hc as (x & -> & B & C & D). exists x. repeat split; auto. now apply bless_false.
    - (* compare and swap *)
      destruct Hpc as (a' & r & E & Hc & Hless). injection E as <- <-.
      destruct (oeqb (bsp s (dst a)) cur) eqn:Eo.
      2:{ apply Hkeep; try congruence; [|intros y Hy; left; cbn [btodo]; rewrite <- Etd; exact Hy].
          split; simpl; [auto|]. exists a, rest. auto. }
      apply oeqb_eq in Eo. subst cur. apply bless_spec in Hless as [Hle Hne].
      set (sp' := fset (bsp s) (dst a) (Some new)).
      assert (Hm : forall v, ole (sp' v) (bsp s v)).
      { intros v. unfold sp'. destruct (Nat.eq_dec v (dst a)) as [->|Hv]; [now rewrite fset_same|rewrite fset_other by auto; apply ole_refl]. }
      assert (Hchg : forall v, bsp s v <> sp0 v -> sp' v <> sp0 v).
      { intros v Hv E. apply Hv. pose proof (Hm v) as X. rewrite E in X. apply ole_antisym; auto. apply (r_mono HI). }
      assert (Hlow : sp' (dst a) <> sp0 (dst a)).
      { intros E. pose proof (r_mono HI (dst a)) as X. rewrite <- E in X. unfold sp' in X. rewrite fset_same in X.
        apply Hne. apply ole_antisym; auto. }
      rewrite Hset. destruct HI as [I1 I2 I3 I4 I5 I6 I7 I8 I9]. split; simpl; fold sp'; auto.
      + intros x Hx. apply Hin in Hx as [->|Hx].
        * split; simpl; [auto|]. exists a, rest. split; auto. split; auto.
          destruct (carries_mono _ Hm Hc) as (x & -> & B & C & D). exists x. repeat split; auto.
          unfold sp'. rewrite fset_same. apply ole_refl.
        * destruct (I1 x Hx) as [A B]. split; auto. destruct (bpcs x); auto.
          -- destruct B as (y & r & A1 & A2). exists y, r. split; auto. eapply carries_mono; eauto.
          -- destruct B as (y & r & A1 & A2 & A3). exists y, r. split; auto. split; auto. eapply carries_mono; eauto.
          -- destruct B as (y & r & A1 & A2 & A3). exists y, r. split; auto. split; auto. eapply relaxed_mono; eauto.
      + intros v. eapply ole_trans; eauto.
      + intros v x. unfold sp'. destruct (Nat.eq_dec v (dst a)) as [->|Hv]; [rewrite fset_same|rewrite fset_other by auto; auto].
        intros E. injection E as <-. destruct Hc as (y & -> & B & C & D). auto.
      + intros v Hv. destruct (Nat.eq_dec v (dst a)) as [->|Hv'].
        * right. eexists. split; [apply Hmid|]. split; auto. simpl. eauto.
        * unfold sp' in Hv. rewrite fset_other in Hv by auto. destruct (I4 v Hv) as [X|(u & Hu & Hf)]; auto. right.
          destruct (Hout {| btodo := btodo th; bpcs := BFlag |} u Hu) as [->|Hu']; [destruct Hf; congruence|].
          exists u. split; auto. now rewrite Etd in Hu'.
      + intros y Hy. destruct (I6 y Hy). auto.
      + intros x Hx. destruct (I9 x Hx) as [X|(u & Hu & Hxu)]; [left; eapply relaxed_mono; eauto|]. right.
        destruct (Hout {| btodo := btodo th; bpcs := BFlag |} u Hu) as [->|Hu'];
          [|exists u; split; auto; now rewrite Etd in Hu'].
        eexists. split; [apply Hmid|]. simpl. now rewrite Etd in Hxu.
    - (* set the flag *)
      destruct Hpc as (a' & r & E & Hrel & Hlow). injection E as <- <-.
      destruct HI as [I1 I2 I3 I4 I5 I6 I7 I8 I9].
      assert (Hok' : th_ok (bsp s) {| btodo := rest; bpcs := BRead |}) by (split; simpl; auto).
      assert (Hcov' : forall x, In x atts -> relaxed (bsp s) x \/ exists u, In u (l1 ++ {| btodo := rest; bpcs := BRead |} :: l2) /\ In x (btodo u)).
      { intros x Hx. destruct (I9 x Hx) as [X|(u & Hu & Hxu)]; auto.
        destruct (Hout {| btodo := rest; bpcs := BRead |} u Hu) as [->|Hu']; [|right; exists u; auto].
        rewrite Etd in Hxu. destruct Hxu as [<-|Hxu]; auto. right. eexists. split; [apply Hmid|]. auto. }
      destruct (bvis s (dst a)) eqn:Ev; rewrite Hset.
      + split; simpl; auto.
        * intros x Hx. apply Hin in Hx as [->|Hx]; auto.
        * intros v Hv. destruct (Nat.eq_dec v (dst a)) as [->|Hv']; auto.
          destruct (I4 v Hv) as [X|(u & Hu & Hf)]; auto. right.
          destruct (Hout {| btodo := rest; bpcs := BRead |} u Hu) as [->|Hu']; [|exists u; auto].
          destruct Hf as (_ & y & r & E & E'). congruence.
      + assert (Hnew : ~ In (dst a) (map dst (blog s))).
        { rewrite in_map_iff. intros (b & E & Hb). assert (X : bvis s (dst a) = true) by (apply I5; eauto). congruence. }
        split; simpl; auto.
        * intros x Hx. apply Hin in Hx as [->|Hx]; auto.
        * intros v Hv. destruct (Nat.eq_dec v (dst a)) as [->|Hv']; [left; apply fset_same|].
          rewrite fset_other by auto. destruct (I4 v Hv) as [X|(u & Hu & Hf)]; auto. right.
          destruct (Hout {| btodo := rest; bpcs := BRead |} u Hu) as [->|Hu']; [|exists u; auto].
          destruct Hf as (_ & y & r & E & E'). congruence.
        * intros v. destruct (Nat.eq_dec v (dst a)) as [->|Hv'].
          -- rewrite fset_same. split; auto. intros _. exists a. auto.
          -- rewrite fset_other by auto. rewrite I5. split; intros (b & Hb & E); [eauto|]. destruct Hb as [->|Hb]; [congruence|eauto].
        * intros b [<-|Hb]; auto.
        * constructor; auto.
  Qed.

  Lemma rexec sched : forall s, RInv s -> RInv (bexec wt sched s).
  Proof. unfold bexec. induction sched; simpl; intros s H; auto. apply IHsched. now apply rstep. Qed.

  (* -- every execution ends: the number of effective steps is bounded ------------------- *)
  Definition live (th : bthread) : nat := (* attempts that have not written yet *)
    match btodo th with [] => 0 | _ :: r => match bpcs th with BFlag => length r | _ => S (length r) end end.
  Definition cost (sp : nat -> option Z) (th : bthread) : nat :=
    match btodo th with
    | [] => 0
    | a :: r => 4 * length r + match bpcs th with
                               | BRead => 4 | BLoad _ => 3
                               | BCas _ cur => if oeqb (sp (dst a)) cur then 2 else 4
                               | BFlag => 1 end
    end.
  Definition potential (s : bstate) : nat :=
    list_sum (map (cost (bsp s)) (bthr s)) + list_sum (map live (bthr s)) * (2 * length (bthr s)).

  Lemma cost_write sp v x th : cost (fset sp v x) th <= cost sp th + 2.
  Proof.
    unfold cost. destruct (btodo th) as [|a r]; [lia|]. destruct (bpcs th); try lia. destruct (oeqb _ _), (oeqb _ _); lia.
  Qed.
  Lemma cost_write_sum sp v x l : list_sum (map (cost (fset sp v x)) l) <= list_sum (map (cost sp) l) + 2 * length l.
  Proof. induction l as [|th l IH]; simpl; [lia|]. pose proof (cost_write sp v x th). lia. Qed.

  Definition pot_of (sp : nat -> option Z) (l : list bthread) : nat :=
    list_sum (map (cost sp) l) + list_sum (map live l) * (2 * length l).
  Lemma pot_split sp l1 th l2 : pot_of sp (l1 ++ th :: l2)
    = list_sum (map (cost sp) l1) + cost sp th + list_sum (map (cost sp) l2)
      + (list_sum (map live l1) + live th + list_sum (map live l2)) * (2 * S (length l1 + length l2)).
  Proof.
    unfold pot_of. rewrite !map_app, !list_sum_app, app_length. simpl map. simpl list_sum. simpl length.
    replace (length l1 + S (length l2)) with (S (length l1 + length l2)) by lia. lia.
  Qed.
  Lemma pot_decr s t th : nth_error (bthr s) t = Some th -> btodo th <> [] -> potential (bstep wt s t) < potential s.
  Proof.
    intros Et Hne. destruct (nth_error_split' _ _ Et) as (l1 & l2 & El & Hl1).
    assert (Hset : forall x, lset (bthr s) t x = l1 ++ x :: l2).
    { intros x. rewrite El, <- Hl1. apply lset_app_mid. }
    assert (Hkeep : forall th' v l o, cost (bsp s) th' < cost (bsp s) th -> live th' <= live th ->
       potential {| bsp := bsp s; bvis := v; blog := l; boverflow := o; bthr := lset (bthr s) t th' |} < potential s).
    { intros th' v l o H1 H2. change (potential s) with (pot_of (bsp s) (bthr s)). unfold potential. cbn [bsp bthr].
      match goal with |- ?x < _ => change x with (pot_of (bsp s) (lset (bthr s) t th')) end.
      rewrite Hset, El, !pot_split.
      assert ((list_sum (map live l1) + live th' + list_sum (map live l2)) * (2 * S (length l1 + length l2))
           <= (list_sum (map live l1) + live th + list_sum (map live l2)) * (2 * S (length l1 + length l2))).
      { apply Nat.mul_le_mono_r. lia. }
      lia. }
    assert (Hc : forall r, cost (bsp s) {| btodo := r; bpcs := BRead |} = 4 * length r).
    { intros r. unfold cost. destruct r; simpl; lia. }
    assert (Hl : forall r, live {| btodo := r; bpcs := BRead |} = length r).
    { intros r. unfold live. destruct r; simpl; lia. }
    unfold bstep. rewrite Et. destruct (btodo th) as [|a rest] eqn:Etd; [congruence|].
    destruct (bpcs th) as [|new|new cur|] eqn:Epc.
    - destruct (bsp s (src a)) as [x|]; apply Hkeep; rewrite ?Hc, ?Hl; unfold cost, live; simpl; rewrite ?Etd, Epc; lia.
    - destruct (bless new (bsp s (dst a))); apply Hkeep; rewrite ?Hc, ?Hl; unfold cost, live; cbn [btodo bpcs];
        rewrite ?Etd, ?Epc; try lia. rewrite (proj2 (oeqb_eq (bsp s (dst a)) _) eq_refl). lia.
    - destruct (oeqb (bsp s (dst a)) cur) eqn:Eo.
      + change (potential s) with (pot_of (bsp s) (bthr s)). unfold potential. cbn [bsp bthr].
        match goal with |- ?x < _ => change x with (pot_of (fset (bsp s) (dst a) (Some new)) (lset (bthr s) t {| btodo := a :: rest; bpcs := BFlag |})) end.
        rewrite Hset, El, !pot_split.
        pose proof (cost_write_sum (bsp s) (dst a) (Some new) l1). pose proof (cost_write_sum (bsp s) (dst a) (Some new) l2).
        assert (E1 : cost (fset (bsp s) (dst a) (Some new)) {| btodo := a :: rest; bpcs := BFlag |} = 4 * length rest + 1) by reflexivity.
        assert (E2 : cost (bsp s) th = 4 * length rest + 2) by (unfold cost; rewrite Etd, Epc, Eo; reflexivity).
        assert (E3 : live {| btodo := a :: rest; bpcs := BFlag |} = length rest) by reflexivity.
        assert (E4 : live th = S (length rest)) by (unfold live; rewrite Etd, Epc; reflexivity).
        rewrite E1, E2, E3, E4.
        replace ((list_sum (map live l1) + S (length rest) + list_sum (map live l2)) * (2 * S (length l1 + length l2)))
          with ((list_sum (map live l1) + length rest + list_sum (map live l2)) * (2 * S (length l1 + length l2)) + 2 * S (length l1 + length l2)) by lia.
        lia.
      + apply Hkeep; unfold cost, live; cbn [btodo bpcs]; rewrite ?Etd, ?Epc, ?Eo; lia.
    - destruct (bvis s (dst a)); apply Hkeep; rewrite ?Hc, ?Hl; unfold cost, live; cbn [btodo bpcs]; rewrite ?Etd, ?Epc; lia.
  Qed.

  Lemma bfinish_exists : forall q s, potential s <= q -> exists sched, bfinished (bexec wt sched s).
  Proof.
    induction q as [|q IH]; intros s Hq.
    - exists []. unfold bfinished. simpl. apply Forall_forall. intros th Hth. apply In_nth_error in Hth as [t Ht].
      destruct (btodo th) eqn:E; auto. assert (Hne : btodo th <> []) by congruence. pose proof (pot_decr _ _ Ht Hne). lia.
    - assert (Hdec : forall th : bthread, {btodo th = []} + {btodo th <> []}).
      { intros th. destruct (btodo th); [left; auto|right; discriminate]. }
      destruct (Forall_Exists_dec (fun th => btodo th = []) Hdec (bthr s)) as [H|H].
      + exists []. exact H.
      + apply Exists_exists in H as (th & Hth & Hne). apply In_nth_error in Hth as [t Ht].
        pose proof (pot_decr _ _ Ht Hne) as Hd. destruct (IH (bstep wt s t)) as [sched Hs]; [lia|].
        exists (t :: sched). exact Hs.
  Qed.
End Machine.

Lemma start_rinv wt sp0 (vis0 : nat -> bool) (val : nat -> Z -> Prop) ts : (forall v, vis0 v = false) ->
  (forall v x, sp0 v = Some x -> val v x) -> RInv wt sp0 (flat_map todo ts) val (bstart sp0 vis0 ts).
Proof.
  intros Hvis H. split; simpl.
  - intros th Hth. apply in_map_iff in Hth as (u & <- & Hu). split; simpl; auto. intros a Ha. apply in_flat_map. eauto.
  - intros. apply ole_refl.
  - exact H.
  - intros v Hv. congruence.
  - intros v. rewrite Hvis. split; [discriminate|]. intros (a & [] & _).
  - easy.
  - constructor.
  - reflexivity.
  - intros a Ha. right. apply in_flat_map in Ha as (u & Hu & Ha). eexists. split; [apply in_map; exact Hu|]. auto.
Qed.

Lemma reset_spec : forall l (vis : nat -> bool) v,
  fold_left (fun vis v => fset vis v false) l vis v = if in_dec Nat.eq_dec v l then false else vis v.
Proof.
  induction l as [|x l IH]; intros vis v; auto. cbn [fold_left]. rewrite IH.
  destruct (in_dec Nat.eq_dec v l) as [H|H], (in_dec Nat.eq_dec v (x :: l)) as [H'|H']; auto.
  - exfalso. apply H'. now right.
  - destruct H' as [->|H']; [apply fset_same|contradiction].
  - apply fset_other. intros ->. apply H'. now left.
Qed.

(* -- one round ------------------------------------------------------------------------- *)
Section Round.
  Variable n : nat.
  Variable outn inn : nat -> list nat.
  Hypothesis G : graph_ok n outn inn.
  Variable wt : nat -> nat -> Z.
  Variable m : nat.
  Variable vis : nat -> bool.
  Hypothesis Hvis : forall v, vis v = false.
  Variable val : nat -> Z -> Prop.
  Hypothesis Hval : forall u v w x, wedge outn wt u v w -> val u x -> val v (x + w)%Z.

  Record round_ok (F : list nat) (sp sp' : nat -> option Z) (vis' : nat -> bool) (ov : bool) (U' : vset unit) (F' : list nat) : Prop := {
    o_built : built n U' (plain F');
    o_F : forall v, In v F' <-> sp' v <> sp v;
    o_mono : forall v, ole (sp' v) (sp v);
    o_val : forall v x, sp' v = Some x -> val v x;
    o_rel : forall u v w, In u F -> wedge outn wt u v w -> exists x, ole (sp' u) (Some x) /\ ole (Some x) (sp u) /\ ole (sp' v) (Some (x + w)%Z);
    o_vis : forall v, vis' v = true -> In v F';
    o_ov : ov = false }.

  Lemma machine_round F U ts sp sched l U' : built n U (plain F) ->
    (forall v x, sp v = Some x -> val v x) -> (forall u, In u F -> sp u <> None) ->
    frontier_edges outn F (flat_map todo ts) ->
    let s := bexec wt sched (bstart sp vis ts) in bfinished s ->
    (forall d, In d l <-> exists a, In a (blog s) /\ dst a = d) -> built n U' (plain l) ->
    round_ok F sp (bsp s) (bvis s) (boverflow s) U' l.
  Proof.
    intros Hb Hv Hf (He1 & He2 & _) s Hfin Hl HU'.
    assert (HI : RInv wt sp (flat_map todo ts) val s).
    { apply rexec; [| |now apply start_rinv].
      - intros a x Ha Hx. apply He1 in Ha as [_ Ha]. eapply Hval; eauto. exists (snd (tag a)). split; auto.
      - intros a Ha. apply Hf. now apply He1. }
    unfold bfinished in Hfin. rewrite Forall_forall in Hfin.
    split; auto.
    - intros v. rewrite Hl. split.
      + intros (a & Ha & <-). now apply (r_log HI).
      + intros Hne. apply (r_vis HI). destruct (r_low HI v Hne) as [X|(th & Hth & _ & a & r & E & _)]; auto.
        rewrite (Hfin _ Hth) in E. discriminate.
    - apply (r_mono HI).
    - apply (r_val HI).
    - intros u v w Hu (j & Hj & ->). destruct (He2 u j v Hu Hj) as (a & Ha & <- & <- & <-).
      destruct (r_cov HI a Ha) as [(x & A & B & C)|(th & Hth & Hx)]; [exists x; auto|].
      rewrite (Hfin _ Hth) in Hx. destruct Hx.
    - intros v Hvv. apply Hl, (r_vis HI), Hvv.
    - apply (r_ov HI).
  Qed.

  Lemma relax_round F U sp sp' vis' ov U' : built n U (plain F) ->
    (forall v x, sp v = Some x -> val v x) -> (forall u, In u F -> sp u <> None) ->
    edgeMap_relax wt n outn m U sp vis sp' vis' ov U' ->
    exists F', round_ok F sp sp' vis' ov U' F'.
  Proof.
    intros Hb Hv Hf HR. pose proof (built_inv tt Hb) as HU.
    destruct (choice_ok outn F m (Some (m / 10)) bf_flags HU) as (c & U1 & Ec & HU1 & Hc).
    assert (Hout : forall s d, s < n -> In d (outn s) -> d < n) by (intros; eapply g_out; eauto).
    inversion HR as [U2 E|U2 sched E s Hfin|U2 B W M ebs sched out E HB HW HM s Hfin Eout]; subst.
    - rewrite Ec in E. injection E as -> ->. exists []. split; auto.
      + split; [split; constructor|]. now left.
      + intros v. simpl. split; [easy|]. intros X. now contradiction X.
      + intros v. apply ole_refl.
      + intros u v w Hu (j & Hj & _). exfalso. apply (Hc u v Hu). eapply nth_error_In; eauto.
      + intros v X. rewrite Hvis in X. discriminate.
    - rewrite Ec in E. injection E as -> ->.
      pose proof (@forward_edges n outn F U2 HU1 Hc) as He.
      destruct (@forward_log n outn F U2 HU1 Hout (blog s)) as (l & Hnd & Hl & HUl); auto.
      { intros a Ha. eapply (r_log (sp0 := sp) (wt := wt) (val := val)); eauto. apply rexec; [| |now apply start_rinv].
        - intros b x Hb' Hx. apply He in Hb' as [_ Hb']. eapply Hval; eauto. exists (snd (tag b)). split; auto.
        - intros b Hb'. apply Hf. now apply He. }
      exists l. eapply machine_round; eauto.
    - rewrite Ec in E. injection E as -> ->. destruct Hc as [Hs Hne].
      pose proof (@chunk_edges n outn F U2 HU1 B W M ebs HB HW HM Hs Hne) as He.
      assert (HI : RInv wt sp (flat_map todo (chunk_threads outn U2 B (plain_bdeg B) ebs)) val s).
      { apply rexec; [| |now apply start_rinv].
        - intros b x Hb' Hx. apply He in Hb' as [_ Hb']. eapply Hval; eauto. exists (snd (tag b)). split; auto.
        - intros b Hb'. apply Hf. now apply He. }
      destruct (@chunk_log n outn F U2 HU1 Hout B W M ebs HB HW HM Hs Hne (blog s)) as (l & Hnd & Hl & EO & HUl).
      { intros a Ha. now apply (r_log HI). }
      { apply (r_nd HI). }
      rewrite Eout in EO. injection EO as ->. exists l. eapply machine_round; eauto.
  Qed.

  Lemma relax_progress F U sp : built n U (plain F) ->
    (forall v x, sp v = Some x -> val v x) -> (forall u, In u F -> sp u <> None) ->
    exists sp' vis' ov U', edgeMap_relax wt n outn m U sp vis sp' vis' ov U'.
  Proof.
    intros Hb Hv Hf. pose proof (built_inv tt Hb) as HU.
    destruct (choice_ok outn F m (Some (m / 10)) bf_flags HU) as (c & U1 & Ec & HU1 & Hc).
    assert (Hout : forall s d, s < n -> In d (outn s) -> d < n) by (intros; eapply g_out; eauto).
    destruct c.
    - do 4 eexists. eapply relax_nothing; eauto.
    - exfalso. clear -Ec. unfold edgeMap_choice, dense_choice in Ec. simpl in Ec.
      destruct (vm U =? 0); [discriminate|]. destruct (_ && _); [discriminate|]. destruct (toSparse U); [|discriminate].
      destruct (_ =? 0); [discriminate|]. destruct (_ && _); discriminate.
    - destruct (bfinish_exists wt _ (le_n (potential (bstart sp vis (forward_threads n outn U1))))) as [sched Hs].
      do 4 eexists. eapply relax_forward; eauto.
    - destruct Hc as [Hs Hne].
      destruct (bfinish_exists wt _ (le_n (potential (bstart sp vis (chunk_threads outn U1 1 (plain_bdeg 1) (fun _ => 1)))))) as [sched Hsc].
      set (s := bexec wt sched _) in Hsc.
      pose proof (@chunk_edges n outn F U1 HU1 1 1 1 (fun _ => 1) (le_n _) (le_n _) (le_n _) Hs Hne) as He.
      assert (HI : RInv wt sp (flat_map todo (chunk_threads outn U1 1 (plain_bdeg 1) (fun _ => 1))) val s).
      { apply rexec; [| |now apply start_rinv].
        - intros b x Hb' Hx. apply He in Hb' as [_ Hb']. eapply Hval; eauto. exists (snd (tag b)). split; auto.
        - intros b Hb'. apply Hf. now apply He. }
      destruct (@chunk_log n outn F U1 HU1 Hout 1 1 1 (fun _ => 1) (le_n _) (le_n _) (le_n _) Hs Hne (blog s)) as (l & Hnd & Hl & EO & HUl).
      { intros a Ha. now apply (r_log HI). }
      { apply (r_nd HI). }
      do 4 eexists. eapply relax_sparse with (sched := sched); eauto.
  Qed.
End Round.
