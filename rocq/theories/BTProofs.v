(* Proofs about the two edge functions of the deterministic search (C79) under interleaving. *)
From Coq Require Import Permutation.
From Verif Require Import Base ListUtil VSModel EMModel FAModel BTModel.
Unset Strict Implicit.

Lemma peqb_spec a b : peqb a b = true <-> a = b.
Proof.
  destruct a as [x|], b as [y|]; simpl; split; intros H; try congruence.
  - apply Nat.eqb_eq in H. congruence.
  - injection H as ->. apply Nat.eqb_refl.
Qed.

(* the tasks only shrink *)
Record tasks_ok (atts : list attempt) (thr : list dthread) : Prop := {
  k_sub : forall th a, In th thr -> In a (dtodo th) -> In a atts;
  k_brk : forall th a b, In th thr -> dbreaks th = true -> In a (dtodo th) -> In b (dtodo th) -> dst a = dst b;
  (* a task that uses update is the only one with its target *)
  k_own : forall t t' th th' a b, nth_error thr t = Some th -> nth_error thr t' = Some th' -> t <> t' ->
     dafter th = NLoad -> In a (dtodo th) -> In b (dtodo th') -> dst a <> dst b }.

Lemma tasks_shrink atts thr t th th' : tasks_ok atts thr -> nth_error thr t = Some th ->
  dbreaks th' = dbreaks th -> dafter th' = dafter th -> incl (dtodo th') (dtodo th) -> tasks_ok atts (lset thr t th').
Proof.
  intros [H1 H2 H3] Et Eb Ea Hi.
  assert (Hth : In th thr) by (eapply nth_error_In; eauto).
  assert (Hlt : t < length thr) by (apply nth_error_Some; congruence).
  assert (Hn : forall q x, nth_error (lset thr t th') q = Some x ->
     exists y, nth_error thr q = Some y /\ dafter x = dafter y /\ incl (dtodo x) (dtodo y)).
  { intros q x Hx. destruct (Nat.eq_dec t q) as [<-|Hq].
    - rewrite nth_error_lset_same in Hx by auto. injection Hx as <-. eauto.
    - rewrite nth_error_lset_other in Hx by auto. exists x. split; [exact Hx|]. split; [reflexivity|]. intros z Hz. exact Hz. }
  split.
  - intros x a Hx Ha. apply In_lset in Hx as [->|Hx]; [apply (H1 th); auto|eapply H1; eauto].
  - intros x a b Hx Hb Ha Hb'. apply In_lset in Hx as [->|Hx]; [|exact (H2 x a b Hx Hb Ha Hb')].
    apply (H2 th); auto. congruence.
  - intros q q' x x' a b Hx Hx' Hq Hd Ha Hb. apply Hn in Hx as (y & A1 & A2 & A3). apply Hn in Hx' as (y' & B1 & B2 & B3).
    apply (H3 q q' y y' a b); auto. congruence.
Qed.

Lemma lset_in (A : Type) (l : list A) t x y : In y l -> nth_error l t <> Some y -> In y (lset l t x).
Proof.
  intros H Hn. apply In_nth_error in H as [q Hq]. destruct (Nat.eq_dec t q) as [->|Hne]; [congruence|].
  apply (nth_error_In _ q). rewrite nth_error_lset_other; auto.
Qed.
Lemma lset_in_new (A : Type) (l : list A) t x y : nth_error l t = Some y -> In x (lset l t x).
Proof. intros H. apply (nth_error_In _ t). apply nth_error_lset_same. apply nth_error_Some. congruence. Qed.

(* -- the first function ------------------------------------------------------------------- *)
Section First.
  Variable par0 : pstate.
  Variable vis0 : nat -> bool.
  Variable atts : list attempt.

  Definition pc1 (par : pstate) (th : dthread) : Prop :=
    match dpcs th with
    | VTest => True
    | VRead | VSet => False
    | pc => exists a r, dtodo th = a :: r /\ active a = true /\ vis0 (dst a) = false /\
              match pc with
              | VCas c => pless (src a) c = true
              | NStore => pless (src a) (par (dst a)) = true /\ dafter th = NLoad
              | NLoad => dafter th = NLoad
              | _ => True
              end
    end.
  Record D1 (s : dstate) : Prop := {
    d_tasks : tasks_ok atts (dthr s);
    d_aft : forall th, In th (dthr s) -> dafter th = VLoad \/ dafter th = NLoad;
    d_pc : forall th, In th (dthr s) -> pc1 (dpar s) th;
    d_vis : dvis s = vis0;
    d_log : dlog s = [];
    d_par : forall d, dpar s d = par0 d \/
       exists a, In a atts /\ active a = true /\ dst a = d /\ vis0 d = false /\ dpar s d = Some (src a);
    d_cov : forall a, In a atts -> active a = true -> vis0 (dst a) = false ->
       (exists c, dpar s (dst a) = Some c /\ c <= src a) \/ exists th, In th (dthr s) /\ In a (dtodo th) }.

  Lemma d1_only s t th th' : D1 s -> nth_error (dthr s) t = Some th ->
    dbreaks th' = dbreaks th -> dafter th' = dafter th -> incl (dtodo th') (dtodo th) -> pc1 (dpar s) th' ->
    (forall a, In a (dtodo th) -> active a = true -> vis0 (dst a) = false ->
       In a (dtodo th') \/ exists c, dpar s (dst a) = Some c /\ c <= src a) ->
    D1 {| dpar := dpar s; dvis := dvis s; dlog := dlog s; dthr := lset (dthr s) t th' |}.
  Proof.
    intros [A1 A2 A3 A4 A5 A6 A7] Et Eb Ea Hi Hp Hc. split; simpl; auto.
    - eapply tasks_shrink; eauto.
    - intros x Hx. apply In_lset in Hx as [->|Hx]; auto. rewrite Ea. apply A2. eapply nth_error_In; eauto.
    - intros x Hx. apply In_lset in Hx as [->|Hx]; auto.
    - intros a Ha Hact Hv. destruct (A7 a Ha Hact Hv) as [H|(x & Hx & Hax)]; auto.
      apply In_nth_error in Hx as [q Hq]. destruct (Nat.eq_dec t q) as [<-|Hne].
      + assert (x = th) by congruence. subst x. destruct (Hc a Hax Hact Hv) as [H|H]; auto.
        right. exists th'. split; auto. eapply lset_in_new; eauto.
      + right. exists x. split; auto. apply (nth_error_In _ q). rewrite nth_error_lset_other; auto.
  Qed.

  Lemma d1_write s t th a r : D1 s -> nth_error (dthr s) t = Some th -> dtodo th = a :: r ->
    active a = true -> vis0 (dst a) = false -> pless (src a) (dpar s (dst a)) = true ->
    D1 {| dpar := fset (dpar s) (dst a) (Some (src a)); dvis := dvis s; dlog := dlog s;
          dthr := lset (dthr s) t {| dbreaks := dbreaks th; dafter := dafter th; dtodo := r; dpcs := VTest |} |}.
  Proof.
    intros [A1 A2 A3 A4 A5 A6 A7] Et Etd Hact Hv Hl.
    set (th' := {| dbreaks := dbreaks th; dafter := dafter th; dtodo := r; dpcs := VTest |}).
    assert (Hth : In th (dthr s)) by (eapply nth_error_In; eauto).
    assert (Hle : forall d c, dpar s d = Some c -> exists c', fset (dpar s) (dst a) (Some (src a)) d = Some c' /\ c' <= c).
    { intros d c Ed. destruct (Nat.eq_dec d (dst a)) as [->|Hd].
      - rewrite fset_same. exists (src a). split; auto. rewrite Ed in Hl. simpl in Hl. apply Nat.ltb_lt in Hl. lia.
      - rewrite fset_other by auto. eauto. }
    split; simpl; auto.
    - eapply tasks_shrink; eauto. rewrite Etd. simpl. intros x Hx. now right.
    - intros x Hx. apply In_lset in Hx as [->|Hx]; [exact (A2 th Hth)|auto].
    - intros x Hx. apply In_nth_error in Hx as [q Hq]. destruct (Nat.eq_dec t q) as [<-|Hne].
      + rewrite nth_error_lset_same in Hq by (apply nth_error_Some; congruence). injection Hq as <-. exact I.
      + rewrite nth_error_lset_other in Hq by auto. pose proof (A3 x (nth_error_In _ _ Hq)) as Hx. unfold pc1 in *.
        destruct (dpcs x); auto. destruct Hx as (b & r' & Eb & B1 & B2 & B3 & B4). exists b, r'.
        split; [auto|]. split; [auto|]. split; [auto|]. split; [|auto]. rewrite fset_other; auto.
        apply (@k_own atts (dthr s) A1 q t x th b a); auto; [rewrite Eb|rewrite Etd]; simpl; auto.
    - intros d. destruct (Nat.eq_dec d (dst a)) as [->|Hd].
      + right. exists a. rewrite fset_same. split; [|auto]. apply (@k_sub atts (dthr s) A1 th); auto. rewrite Etd. now left.
      + rewrite fset_other by auto. auto.
    - intros b Hb Hbact Hbv. destruct (A7 b Hb Hbact Hbv) as [(c & Hc1 & Hc2)|(x & Hx & Hbx)].
      + left. destruct (Hle _ _ Hc1) as (c' & E & Hc'). exists c'. split; auto. lia.
      + apply In_nth_error in Hx as [q Hq]. destruct (Nat.eq_dec t q) as [<-|Hne].
        * assert (x = th) by congruence. subst x. rewrite Etd in Hbx. destruct Hbx as [<-|Hbx].
          -- left. exists (src a). rewrite fset_same. auto.
          -- right. exists th'. split; auto. eapply lset_in_new; eauto.
        * right. exists x. split; auto. apply (nth_error_In _ q). rewrite nth_error_lset_other; auto.
  Qed.

  Lemma d1_step s t : D1 s -> D1 (dstep s t).
  Proof.
    intros HI. unfold dstep. destruct (nth_error (dthr s) t) as [th|] eqn:Et; auto.
    destruct (dtodo th) as [|a rest] eqn:Etd; auto.
    assert (Hth : In th (dthr s)) by (eapply nth_error_In; eauto).
    pose proof (d_pc HI Hth) as Hpc. unfold pc1 in Hpc.
    assert (Hvis : dvis s = vis0) by apply (d_vis HI).
    assert (Hrest : incl rest (dtodo th)) by (rewrite Etd; intros x Hx; now right).
    assert (Hall : incl (a :: rest) (dtodo th)) by (rewrite Etd; apply incl_refl).
    assert (Hkeep : forall x, In x (dtodo th) -> active x = true -> vis0 (dst x) = false ->
       In x (a :: rest) \/ exists c, dpar s (dst x) = Some c /\ c <= src x) by (rewrite Etd; auto).
    destruct (dpcs th) as [| |c| | | |] eqn:Epc; try contradiction.
    - destruct (dvis s (dst a)) eqn:Ev.
      + destruct (dbreaks th) eqn:Eb.
        * eapply d1_only; eauto; simpl; try exact I; try (now intros ?). intros x Hx Hact Hv. exfalso.
          assert (E : dst x = dst a). { apply (@k_brk _ _ (d_tasks HI) th); auto. rewrite Etd. now left. }
          rewrite E, <- Hvis, Ev in Hv. discriminate.
        * eapply d1_only; eauto; simpl; try exact I. rewrite Etd. intros x [<-|Hx] Hact Hv; auto.
          rewrite <- Hvis, Ev in Hv. discriminate.
      + destruct (active a) eqn:Eact.
        * eapply d1_only; eauto; simpl.
          unfold pc1. simpl. destruct (d_aft HI Hth) as [E|E]; rewrite E; exists a, rest; rewrite <- Hvis; auto.
        * eapply d1_only; eauto; simpl; try exact I. rewrite Etd. intros x [<-|Hx] Hact Hv; auto. congruence.
    - destruct Hpc as (a' & r' & E & B1 & B2 & _). rewrite Etd in E. injection E as <- <-.
      destruct (pless (src a) (dpar s (dst a))) eqn:El.
      + eapply d1_only; eauto; simpl. unfold pc1. simpl. exists a, rest. auto.
      + eapply d1_only; eauto; simpl; try exact I. rewrite Etd. intros x [<-|Hx] Hact Hv; auto. right.
        destruct (dpar s (dst a)) as [c|]; [|discriminate]. simpl in El. apply Nat.ltb_ge in El. eauto.
    - destruct Hpc as (a' & r' & E & B1 & B2 & B3). rewrite Etd in E. injection E as <- <-.
      destruct (peqb (dpar s (dst a)) c) eqn:Ec.
      + apply peqb_spec in Ec. subst c. eapply d1_write; eauto.
      + eapply d1_only; eauto; simpl. unfold pc1. simpl. exists a, rest. auto.
    - destruct Hpc as (a' & r' & E & B1 & B2 & B3). rewrite Etd in E. injection E as <- <-.
      destruct (pless (src a) (dpar s (dst a))) eqn:El.
      + eapply d1_only; eauto; simpl. unfold pc1. simpl. exists a, rest. auto.
      + eapply d1_only; eauto; simpl; try exact I. rewrite Etd. intros x [<-|Hx] Hact Hv; auto. right.
        destruct (dpar s (dst a)) as [c|]; [|discriminate]. simpl in El. apply Nat.ltb_ge in El. eauto.
    - destruct Hpc as (a' & r' & E & B1 & B2 & B3 & B4). rewrite Etd in E. injection E as <- <-.
      eapply d1_write; eauto.
  Qed.
  Lemma d1_exec sched : forall s, D1 s -> D1 (dexec sched s).
  Proof. induction sched as [|t r IH]; intros s H; simpl; auto. apply IH, d1_step, H. Qed.

  (* what the traversal leaves behind *)
  Lemma d1_end s : D1 s -> dfinished s ->
    dvis s = vis0 /\ dlog s = [] /\
    (forall d, (vis0 d = true \/ forall a, In a atts -> active a = true -> dst a <> d) -> dpar s d = par0 d) /\
    (forall d, vis0 d = false -> par0 d = None -> (exists a, In a atts /\ active a = true /\ dst a = d) ->
       exists a, In a atts /\ active a = true /\ dst a = d /\ dpar s d = Some (src a) /\
                 forall b, In b atts -> active b = true -> dst b = d -> src a <= src b).
  Proof.
    intros HI Hf. split; [apply (d_vis HI)|]. split; [apply (d_log HI)|]. split.
    - intros d Hd. destruct (d_par HI d) as [E|(a & A1 & A2 & A3 & A4 & _)]; auto. exfalso.
      destruct Hd as [Hd|Hd]; [congruence|]. exact (Hd a A1 A2 A3).
    - intros d Hv Hp (b & B1 & B2 & B3).
      assert (Hcov : forall b, In b atts -> active b = true -> dst b = d -> exists c, dpar s d = Some c /\ c <= src b).
      { intros x X1 X2 X3. rewrite <- X3 in Hv. destruct (d_cov HI X1 X2 Hv) as [H|(th & Hth & Hx)]; [now rewrite X3 in H|].
        rewrite (proj1 (Forall_forall _ _) Hf th Hth) in Hx. destruct Hx. }
      destruct (Hcov b B1 B2 B3) as (c & Ec & _).
      destruct (d_par HI d) as [E|(a & A1 & A2 & A3 & A4 & A5)]; [congruence|].
      exists a. split; auto. split; auto. split; auto. split; auto.
      intros x X1 X2 X3. destruct (Hcov x X1 X2 X3) as (c' & E' & Hc'). congruence.
  Qed.
End First.

(* -- the second function ------------------------------------------------------------------ *)
Section Second.
  Variable par0 : pstate.
  Variable vis0 : nat -> bool.
  Variable atts : list attempt.

  Definition pc2 (th : dthread) : Prop :=
    match dpcs th with
    | VTest => True
    | VRead => exists a r, dtodo th = a :: r /\ active a = true /\ vis0 (dst a) = false
    | VSet => exists a r, dtodo th = a :: r /\ active a = true /\ vis0 (dst a) = false /\ par0 (dst a) = Some (src a)
    | _ => False
    end.
  Record D2 (s : dstate) : Prop := {
    e_tasks : tasks_ok atts (dthr s);
    e_aft : forall th, In th (dthr s) -> dafter th = VRead;
    e_pc : forall th, In th (dthr s) -> pc2 th;
    e_par : dpar s = par0;
    e_vis : forall d, dvis s d = true <-> vis0 d = true \/ exists a, In a (dlog s) /\ dst a = d;
    e_log : forall a, In a (dlog s) -> In a atts /\ active a = true /\ vis0 (dst a) = false /\ par0 (dst a) = Some (src a);
    e_cov : forall a, In a atts -> active a = true -> vis0 (dst a) = false -> par0 (dst a) = Some (src a) ->
       dvis s (dst a) = true \/ exists th, In th (dthr s) /\ In a (dtodo th);
    e_nd : NoDup (map (fun a => (src a, dst a)) atts) ->
           NoDup (map (fun a => (src a, dst a)) (dlog s ++ flat_map dtodo (dthr s))) }.

  Lemma nodup_shrink (thr : list dthread) t th th' (log : list attempt) : nth_error thr t = Some th ->
    (exists l, dtodo th = l ++ dtodo th') ->
    NoDup (map (fun a => (src a, dst a)) (log ++ flat_map dtodo thr)) ->
    NoDup (map (fun a => (src a, dst a)) (log ++ flat_map dtodo (lset thr t th'))).
  Proof.
    intros Et (l & El) H. destruct (nth_error_split' _ _ Et) as (l1 & l2 & -> & <-).
    rewrite lset_app_mid. rewrite flat_map_app in *. simpl in *. rewrite El in H.
    rewrite !map_app in *. rewrite <- app_assoc in H. rewrite app_assoc in *.
    set (p := map _ log ++ map _ (flat_map dtodo l1)) in *. set (q := map _ (dtodo th') ++ _) in *.
    apply NoDup_app_iff in H as (H1 & H2 & H3). apply NoDup_app_iff in H2 as (H4 & H5 & H6).
    apply NoDup_app_iff. split; auto. split; auto. intros x X1 X2. apply (H3 x X1). apply in_app_iff. auto.
  Qed.
  Lemma nodup_log (thr : list dthread) t th th' (log : list attempt) a : nth_error thr t = Some th ->
    dtodo th = a :: dtodo th' ->
    NoDup (map (fun a => (src a, dst a)) (log ++ flat_map dtodo thr)) ->
    NoDup (map (fun a => (src a, dst a)) ((a :: log) ++ flat_map dtodo (lset thr t th'))).
  Proof.
    intros Et El H. destruct (nth_error_split' _ _ Et) as (l1 & l2 & -> & <-).
    rewrite lset_app_mid. rewrite flat_map_app in *. simpl in *. rewrite El in H.
    refine (Permutation_NoDup _ H). change ((src a, dst a) :: ?x) with (map (fun a => (src a, dst a)) [a] ++ x).
    rewrite <- map_app. apply Permutation_map. simpl. rewrite app_assoc.
    etransitivity; [symmetry; apply Permutation_middle|]. apply perm_skip. now rewrite <- app_assoc.
  Qed.

  Lemma d2_only s t th th' : D2 s -> nth_error (dthr s) t = Some th ->
    dbreaks th' = dbreaks th -> dafter th' = dafter th -> (exists l, dtodo th = l ++ dtodo th') -> pc2 th' ->
    (forall a, In a (dtodo th) -> active a = true -> vis0 (dst a) = false -> par0 (dst a) = Some (src a) ->
       In a (dtodo th') \/ dvis s (dst a) = true) ->
    D2 {| dpar := dpar s; dvis := dvis s; dlog := dlog s; dthr := lset (dthr s) t th' |}.
  Proof.
    intros [A1 A2 A3 A4 A5 A6 A7 A8] Et Eb Ea Hi Hp Hc. split; simpl; auto.
    - eapply tasks_shrink; eauto. destruct Hi as (l & ->). intros x Hx. apply in_app_iff. auto.
    - intros x Hx. apply In_lset in Hx as [->|Hx]; auto. rewrite Ea. apply A2. eapply nth_error_In; eauto.
    - intros x Hx. apply In_lset in Hx as [->|Hx]; auto.
    - intros a Ha Hact Hv Hp0. destruct (A7 a Ha Hact Hv Hp0) as [H|(x & Hx & Hax)]; auto.
      apply In_nth_error in Hx as [q Hq]. destruct (Nat.eq_dec t q) as [<-|Hne].
      + assert (x = th) by congruence. subst x. destruct (Hc a Hax Hact Hv Hp0) as [H|H]; auto.
        right. exists th'. split; auto. eapply lset_in_new; eauto.
      + right. exists x. split; auto. apply (nth_error_In _ q). rewrite nth_error_lset_other; auto.
    - intros Hnd. eapply nodup_shrink; eauto.
  Qed.

  Lemma d2_step s t : D2 s -> D2 (dstep s t).
  Proof.
    intros HI. unfold dstep. destruct (nth_error (dthr s) t) as [th|] eqn:Et; auto.
    destruct (dtodo th) as [|a rest] eqn:Etd; auto.
    assert (Hth : In th (dthr s)) by (eapply nth_error_In; eauto).
    pose proof (e_pc HI Hth) as Hpc. unfold pc2 in Hpc.
    assert (Hrest : exists l, dtodo th = l ++ rest) by (exists [a]; exact Etd).
    assert (Hall : exists l, dtodo th = l ++ a :: rest) by (exists []; exact Etd).
    assert (Hnone : exists l, dtodo th = l ++ []) by (exists (dtodo th); now rewrite app_nil_r).
    assert (Hkeep : forall x, In x (dtodo th) -> active x = true -> vis0 (dst x) = false -> par0 (dst x) = Some (src x) ->
       In x (a :: rest) \/ dvis s (dst x) = true) by (rewrite Etd; auto).
    destruct (dpcs th) as [| |c| | | |] eqn:Epc; try contradiction.
    - destruct (dvis s (dst a)) eqn:Ev.
      + destruct (dbreaks th) eqn:Eb.
        * eapply d2_only; eauto; simpl; try exact I. intros x Hx Hact Hv Hp0. right.
          assert (E : dst x = dst a). { apply (@k_brk _ _ (e_tasks HI) th); auto. rewrite Etd. now left. }
          now rewrite E.
        * eapply d2_only; eauto; simpl; try exact I. rewrite Etd. intros x [<-|Hx] Hact Hv Hp0; auto.
      + destruct (active a) eqn:Eact.
        * eapply d2_only; eauto; simpl.
          unfold pc2. simpl. rewrite (e_aft HI Hth). exists a, rest. split; auto. split; auto.
          destruct (vis0 (dst a)) eqn:E0; auto. exfalso. assert (X : dvis s (dst a) = true) by (apply (e_vis HI); auto). congruence.
        * eapply d2_only; eauto; simpl; try exact I. rewrite Etd. intros x [<-|Hx] Hact Hv Hp0; auto. congruence.
    - destruct Hpc as (a' & r' & E & B1 & B2). rewrite Etd in E. injection E as <- <-.
      destruct (peqb (dpar s (dst a)) (Some (src a))) eqn:Ec.
      + apply peqb_spec in Ec. rewrite (e_par HI) in Ec. eapply d2_only; eauto; simpl. unfold pc2. simpl. exists a, rest. auto.
      + eapply d2_only; eauto; simpl; try exact I. rewrite Etd. intros x [<-|Hx] Hact Hv Hp0; auto. exfalso.
        rewrite (e_par HI), Hp0 in Ec. simpl in Ec. now rewrite Nat.eqb_refl in Ec.
    - destruct Hpc as (a' & r' & E & B1 & B2 & B3). rewrite Etd in E. injection E as <- <-.
      set (th' := {| dbreaks := dbreaks th; dafter := dafter th; dtodo := rest; dpcs := VTest |}).
      assert (Hain : In a atts). { apply (@k_sub _ _ (e_tasks HI) th); auto. rewrite Etd. now left. }
      split; simpl.
      + eapply tasks_shrink; eauto using e_tasks. rewrite Etd. simpl. intros x Hx. now right.
      + intros x Hx. apply In_lset in Hx as [->|Hx]; simpl; now apply (e_aft HI).
      + intros x Hx. apply In_lset in Hx as [->|Hx]; [exact I|]. now apply (e_pc HI).
      + apply (e_par HI).
      + intros d. destruct (Nat.eq_dec d (dst a)) as [->|Hd].
        * rewrite fset_same. split; auto. intros _. right. exists a. auto.
        * rewrite fset_other by auto. rewrite (e_vis HI). split; (intros [H|(x & Hx & Ex)]; [now left|right]).
          -- exists x. auto.
          -- destruct Hx as [<-|Hx]; [congruence|]. exists x. auto.
      + intros x [<-|Hx]; [auto|now apply (e_log HI)].
      + intros x Hx Hact Hv Hp0. destruct (e_cov HI Hx Hact Hv Hp0) as [H|(y & Hy & Hxy)].
        * left. destruct (Nat.eq_dec (dst x) (dst a)) as [->|Hd]; [apply fset_same|now rewrite fset_other].
        * apply In_nth_error in Hy as [q Hq]. destruct (Nat.eq_dec t q) as [<-|Hne].
          -- assert (y = th) by congruence. subst y. rewrite Etd in Hxy. destruct Hxy as [<-|Hxy].
             ++ left. apply fset_same.
             ++ right. exists th'. split; auto. eapply lset_in_new; eauto.
          -- right. exists y. split; auto. apply (nth_error_In _ q). rewrite nth_error_lset_other; auto.
      + intros Hnd. apply (nodup_log (th := th) (th' := th') (log := dlog s)); auto. now apply (e_nd HI).
  Qed.
  Lemma d2_exec sched : forall s, D2 s -> D2 (dexec sched s).
  Proof. induction sched as [|t r IH]; intros s H; simpl; auto. apply IH, d2_step, H. Qed.

  Lemma d2_end s : D2 s -> dfinished s ->
    dpar s = par0 /\
    (forall d, (exists a, In a (dlog s) /\ dst a = d) <->
       vis0 d = false /\ exists a, In a atts /\ active a = true /\ dst a = d /\ par0 d = Some (src a)) /\
    (forall d, dvis s d = true <-> vis0 d = true \/ exists a, In a (dlog s) /\ dst a = d) /\
    (NoDup (map (fun a => (src a, dst a)) atts) -> NoDup (map dst (dlog s))).
  Proof.
    intros HI Hf. split; [apply (e_par HI)|]. split; [|split].
    - intros d. split.
      + intros (a & Ha & <-). apply (e_log HI) in Ha as (B1 & B2 & B3 & B4). split; auto. exists a. auto.
      + intros (Hv & a & B1 & B2 & B3 & B4). subst d. destruct (e_cov HI B1 B2 Hv B4) as [H|(th & Hth & Hx)].
        * apply (e_vis HI) in H as [H|H]; [congruence|auto].
        * rewrite (proj1 (Forall_forall _ _) Hf th Hth) in Hx. destruct Hx.
    - apply (e_vis HI).
    - intros Hnd. apply (e_nd HI) in Hnd. rewrite map_app in Hnd. apply NoDup_app_iff in Hnd as (Hnd & _ & _).
      assert (Hs : forall a b, In a (dlog s) -> In b (dlog s) -> dst a = dst b -> src a = src b).
      { intros a b Ha Hb E. apply (e_log HI) in Ha as (_ & _ & _ & A). apply (e_log HI) in Hb as (_ & _ & _ & B). congruence. }
      clear -Hnd Hs. induction (dlog s) as [|a l IH]; simpl in *; [constructor|]. inversion Hnd; subst. constructor.
      + intros Hin. apply in_map_iff in Hin as (b & E & Hb). apply H1. apply in_map_iff. exists b. split; [|exact Hb].
        rewrite (Hs b a (or_intror Hb) (or_introl eq_refl) E), E. reflexivity.
      + apply IH; auto.
  Qed.
End Second.

(* -- no interleaving goes on for ever ------------------------------------------------------ *)
Definition dpc_cost (par : pstate) (a : attempt) (pc : dpc) : nat :=
  match pc with
  | VTest => 5 | VLoad => 3 | VCas c => if peqb (par (dst a)) c then 2 else 4
  | NLoad => 3 | NStore => 2 | VRead => 3 | VSet => 2
  end.
Definition dcost (par : pstate) (th : dthread) : nat :=
  match dtodo th with [] => 0 | a :: r => 5 * length r + dpc_cost par a (dpcs th) end.
Definition dpot_of (par : pstate) (l : list dthread) : nat :=
  list_sum (map (dcost par) l) + list_sum (map (fun th => length (dtodo th)) l) * (2 * length l).
Definition dpotential (s : dstate) : nat := dpot_of (dpar s) (dthr s).
Lemma dcost_any par par' th : dcost par' th <= dcost par th + 2.
Proof.
  unfold dcost. destruct (dtodo th) as [|a r]; [lia|]. unfold dpc_cost. destruct (dpcs th); try lia.
  destruct (peqb _ _), (peqb _ _); lia.
Qed.
Lemma dcost_sum par par' l : list_sum (map (dcost par') l) <= list_sum (map (dcost par) l) + 2 * length l.
Proof. induction l as [|th l IH]; simpl; [lia|]. pose proof (dcost_any par par' th). lia. Qed.
Definition dlen (th : dthread) : nat := length (dtodo th).
Lemma dpot_split par l1 th l2 : dpot_of par (l1 ++ th :: l2)
  = list_sum (map (dcost par) l1) + dcost par th + list_sum (map (dcost par) l2)
    + (list_sum (map dlen l1) + dlen th + list_sum (map dlen l2)) * (2 * S (length l1 + length l2)).
Proof.
  unfold dpot_of. change (fun th => length (dtodo th)) with dlen. rewrite !map_app, !list_sum_app, app_length. simpl map. simpl list_sum. simpl length.
  replace (length l1 + S (length l2)) with (S (length l1 + length l2)) by lia. lia.
Qed.
Lemma dpot_decr s t th : nth_error (dthr s) t = Some th -> dtodo th <> [] -> dafter th <> VTest ->
  dpotential (dstep s t) < dpotential s.
Proof.
  intros Et Hne Haft. destruct (nth_error_split' _ _ Et) as (l1 & l2 & El & Hl1).
  assert (Hset : forall x, lset (dthr s) t x = l1 ++ x :: l2).
  { intros x. rewrite El, <- Hl1. apply lset_app_mid. }
  unfold dpotential at 2. rewrite El, dpot_split.
  set (A := list_sum (map (dcost (dpar s)) l1)). set (B := list_sum (map (dcost (dpar s)) l2)).
  set (P := list_sum (map dlen l1)). set (Q := list_sum (map dlen l2)). set (N := 2 * S (length l1 + length l2)).
  assert (Hkeep : forall th' l v, dcost (dpar s) th' < dcost (dpar s) th -> dlen th' <= dlen th ->
     dpotential {| dpar := dpar s; dvis := v; dlog := l; dthr := lset (dthr s) t th' |} < A + dcost (dpar s) th + B + (P + dlen th + Q) * N).
  { intros th' l v H1 H2. unfold dpotential. cbn [dpar dthr]. rewrite Hset, dpot_split. fold A B P Q N.
    assert ((P + dlen th' + Q) * N <= (P + dlen th + Q) * N) by (apply Nat.mul_le_mono_r; lia). lia. }
  assert (Hchg : forall par' th' l v, dcost par' th' < dcost (dpar s) th -> S (dlen th') <= dlen th ->
     dpotential {| dpar := par'; dvis := v; dlog := l; dthr := lset (dthr s) t th' |} < A + dcost (dpar s) th + B + (P + dlen th + Q) * N).
  { intros par' th' l v H1 H2. unfold dpotential. cbn [dpar dthr]. rewrite Hset, dpot_split. fold P Q N.
    pose proof (dcost_sum (dpar s) par' l1) as X1. pose proof (dcost_sum (dpar s) par' l2) as X2. fold A in X1. fold B in X2.
    assert (X3 : (P + S (dlen th') + Q) * N <= (P + dlen th + Q) * N) by (apply Nat.mul_le_mono_r; lia).
    replace ((P + S (dlen th') + Q) * N) with ((P + dlen th' + Q) * N + N) in X3 by lia. unfold N in *. lia. }
  clearbody A B P Q N.
  assert (Hc : forall p b f r, dcost p {| dbreaks := b; dafter := f; dtodo := r; dpcs := VTest |} = 5 * length r).
  { intros p b f r. unfold dcost. destruct r; cbn [dtodo dpcs dpc_cost length]; lia. }
  unfold dstep. rewrite Et. destruct (dtodo th) as [|a rest] eqn:Etd; [congruence|].
  assert (E1 : dcost (dpar s) th = 5 * length rest + dpc_cost (dpar s) a (dpcs th)) by (unfold dcost; now rewrite Etd).
  assert (E2 : dlen th = S (length rest)) by (unfold dlen; now rewrite Etd).
  assert (E3 : forall p b f pc, dcost p {| dbreaks := b; dafter := f; dtodo := a :: rest; dpcs := pc |} = 5 * length rest + dpc_cost p a pc) by reflexivity.
  assert (Hafter : dpc_cost (dpar s) a (dafter th) < 5).
  { destruct (dafter th); simpl; try lia; [congruence|]. destruct (peqb _ _); lia. }
  destruct (dpcs th) as [| |c| | | |] eqn:Epc; cbn [dpc_cost] in *;
    repeat match goal with |- context [if ?x then _ else _] => destruct x eqn:? end;
    first [apply Hkeep|apply Hchg]; rewrite ?E1, ?E2, ?E3, ?Hc; unfold dlen; cbn [dpc_cost dtodo length];
    rewrite ?(proj2 (peqb_spec _ _) eq_refl); lia.
Qed.
Lemma dafter_step s t : (forall th, In th (dthr s) -> dafter th <> VTest) -> forall th, In th (dthr (dstep s t)) -> dafter th <> VTest.
Proof.
  intros H th. unfold dstep. destruct (nth_error (dthr s) t) as [x|] eqn:Et; [|now apply H].
  destruct (dtodo x) as [|a r]; [now apply H|]. assert (Hx : dafter x <> VTest) by (apply H; eapply nth_error_In; eauto).
  destruct (dpcs x); cbn [dthr]; repeat match goal with |- context [if ?b then _ else _] => destruct b end; cbn [dthr];
    intros Hin; apply In_lset in Hin as [->|Hin]; auto.
Qed.
Lemma dfinish_exists : forall q s, dpotential s <= q -> (forall th, In th (dthr s) -> dafter th <> VTest) ->
  exists sched, dfinished (dexec sched s).
Proof.
  induction q as [|q IH]; intros s Hq Ha.
  - exists []. unfold dfinished. simpl. apply Forall_forall. intros th Hth. pose proof (Ha th Hth) as Hat. apply In_nth_error in Hth as [t Ht].
    destruct (dtodo th) eqn:E; auto. assert (Hne : dtodo th <> []) by congruence. pose proof (dpot_decr Ht Hne Hat). lia.
  - assert (Hdec : forall th : dthread, {dtodo th = []} + {dtodo th <> []}).
    { intros th. destruct (dtodo th); [left; auto|right; discriminate]. }
    destruct (Forall_Exists_dec (fun th => dtodo th = []) Hdec (dthr s)) as [H|H].
    + exists []. exact H.
    + apply Exists_exists in H as (th & Hth & Hne). pose proof (Ha th Hth) as Hat. apply In_nth_error in Hth as [t Ht].
      pose proof (dpot_decr Ht Hne Hat) as Hd. destruct (IH (dstep s t)) as [sched Hs]; [lia|now apply dafter_step|].
      exists (t :: sched). exact Hs.
Qed.
