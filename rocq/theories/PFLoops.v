(* Proofs about the label propagation spanning forest: the rounds. *)
From Verif Require Import Base ListUtil VSModel VSSpec VSProofs VSProps EMModel EMSpec EMPar EMModes EMProps EMPush FAModel FASpec FAProofs
  LPModel LPProofs PFModel PFProofs.
Unset Strict Implicit.

Lemma copied_spec (par : nat -> nat) : forall l (prev : nat -> nat) v,
  fold_left (fun prev v => fset prev v (par v)) l prev v = if in_dec Nat.eq_dec v l then par v else prev v.
Proof.
  induction l as [|x l IH]; intros prev v; auto. cbn [fold_left]. rewrite IH.
  destruct (in_dec Nat.eq_dec v l) as [H|H], (in_dec Nat.eq_dec v (x :: l)) as [H'|H']; auto.
  - exfalso. apply H'. now right.
  - destruct H' as [->|H']; [apply fset_same|contradiction].
  - apply fset_other. intros ->. apply H'. now left.
Qed.

Section Round.
  Variable largest : nat.
  Notation key := (lkey largest).
  Variable n : nat.
  Variable outn : nat -> list nat.
  Hypothesis G : graph_ok n outn outn.
  Variable m : nat.

  Definition visits (F : list nat) (atts : list attempt) : Prop :=
    (forall a, In a atts -> In (src a) F /\ In (dst a) (outn (src a))) /\
    (forall u v, In u F -> In v (outn u) -> exists a, In a atts /\ src a = u /\ dst a = v).
  Lemma edges_visit F atts : frontier_edges outn F atts -> visits F atts.
  Proof.
    intros (A & B & _). split.
    - intros a Ha. apply A in Ha as [H1 H2]. split; auto. eapply nth_error_In; eauto.
    - intros u v Hu Hv. apply In_nth_error in Hv as [j Hj]. destruct (B u j v Hu Hj) as (a & H1 & H2 & H3 & H4). eauto.
  Qed.
  Lemma each_visit F U : Inv n U (plain F) -> isDense U = false -> visits F (flat_map todo (each_threads outn U)).
  Proof.
    intros HU Hd. split.
    - intros a Ha. apply in_flat_map in Ha as (th & Hth & Ha). unfold each_threads in Hth.
      apply in_flat_map in Hth as (i & Hi & H). apply in_seq in Hi.
      apply in_map_iff in H as ([j d] & <- & Hj). simpl in Ha. destruct Ha as [<-|[]]. simpl.
      apply combine_seq_In in Hj as [_ Hj]. split; [|eapply nth_error_In; eauto]. apply (vtx_F F HU Hd). lia.
    - intros u v Hu Hv. destruct (F_vtx F HU Hd u Hu) as (i & Hi & E). apply In_nth_error in Hv as [j Hj].
      exists {| tag := (i, j); src := u; dst := v; active := true |}. split; auto.
      apply in_flat_map. eexists. split.
      + unfold each_threads. apply in_flat_map. exists i. split; [apply in_seq; lia|]. cbv zeta. rewrite E. apply in_map_iff.
        exists (j, v). split; [reflexivity|]. apply combine_seq_In. rewrite Nat.sub_0_r. split; auto. lia.
      + now left.
  Qed.

  (* an edge visited in the round, from one end or the other *)
  Definition touched (F : list nat) (u v : nat) : Prop := u < n /\ In v (outn u) /\ (In u F \/ In v F).
  Record round_ok (F : list nat) (q par' chg' : nat -> nat) (next' : vset unit) (F' : list nat) : Prop := {
    r_inv : Inv n next' (plain F');
    r_F : forall v, In v F' <-> key (par' v) < key (q v);
    r_mono : forall v, key (par' v) <= key (q v);
    r_val : forall v, par' v = q v \/ exists u, touched F u v /\ par' v = q u;
    r_rel : forall u v, touched F u v -> key (par' v) <= key (q u);
    r_chg : forall v, unmark next' chg' v = unemitted;
    r_prev : forall v, copied next' par' q v = par' v }.

  Lemma finish_mark F U2 V q s atts next l : Inv n U2 (plain F) -> toSparse U2 = Some V ->
    visits F atts -> MI largest q atts s -> mfinished s ->
    NoDup l -> (forall d, In d l <-> exists a, In a (mlog s) /\ dst a = d) ->
    built n next (plain l) -> one_representation next ->
    exists F', round_ok F q (mpar s) (mchg s) (add_to_vsubset next (new_vtxs V (mchg s))) F'.
  Proof.
    intros HU' EV (He1 & He2) HI Hfin Hndl Hl Hbn Hone.
    destruct (toSparse_inv HU') as (V' & EV' & HV & HVs). rewrite EV in EV'. injection EV' as <-.
    pose proof (vtx_list F HV HVs) as HP. unfold new_vtxs.
    set (L := map (fun i => fst (nth i (vs V) (0, tt))) (seq 0 (vm V))) in *.
    set (new := filter (fun v => mchg s v =? need_emit) L).
    assert (Hnew : forall v, In v new <-> In v F /\ mchg s v = need_emit).
    { intros v. unfold new. rewrite filter_In, Nat.eqb_eq. split; intros [A B]; split; auto.
      - now apply (Permutation_in _ HP).
      - now apply (Permutation_in _ (Permutation_sym HP)). }
    destruct (i_sub HU') as [HndF HltF]. unfold plain in HndF. rewrite map_map, map_id in HndF.
    assert (HF : forall v, In v F -> v < n).
    { intros v Hv. rewrite Forall_forall in HltF. apply (HltF (v, tt)). unfold plain. apply in_map_iff. eauto. }
    assert (Hndn : NoDup new). { apply NoDup_filter. eapply Permutation_NoDup; [apply Permutation_sym, HP|auto]. }
    assert (Hdec : forall v, In v (l ++ new) <-> mchg s v <> unemitted).
    { intros v. rewrite in_app_iff, Hl, Hnew, <- (mi_vis HI). pose proof (mi_two HI v). unfold unemitted, need_emit, emitted in *. split.
      - lia.
      - intros X. destruct (Nat.eq_dec (mchg s v) 2) as [E|E]; auto. right. assert (E1 : mchg s v = 1) by lia.
        split; auto. destruct (mi_need HI E1) as (a & Ha & <-). now apply He1. }
    unfold mfinished in Hfin. rewrite Forall_forall in Hfin.
    assert (Hlow : forall v, In v (l ++ new) <-> key (mpar s v) < key (q v)).
    { intros v. rewrite Hdec. split.
      - apply (mi_chg HI).
      - intros X. destruct (mi_low HI X) as [Y|(th & Hth & Ho)]; auto. exfalso.
        unfold mth_owes in Ho. now rewrite (Hfin _ Hth) in Ho. }
    assert (HInext : Inv n (add_to_vsubset next new) (plain (l ++ new))).
    { unfold plain. rewrite map_app. apply add_inv; auto.
      - apply (built_inv tt), Hbn.
      - fold (plain l). unfold plain. rewrite map_map, map_id. apply NoDup_app_iff. split; auto. split; auto.
        intros v H1 H2. apply Hl, (mi_vis HI) in H1. apply Hnew in H2 as [_ H2]. rewrite H1 in H2. discriminate.
      - apply Forall_forall. intros v Hv. apply Hnew in Hv as [Hv _]. auto. }
    assert (Hcalls : forall v, In v (map fst (vertexMap_calls tt (add_to_vsubset next new))) <-> In v (l ++ new)).
    { intros v. pose proof (calls_perm tt HInext) as Hp. apply (Permutation_map fst) in Hp.
      unfold plain in Hp. rewrite map_map in Hp. simpl in Hp. rewrite map_id in Hp.
      split; apply Permutation_in; [|apply Permutation_sym]; exact Hp. }
    assert (Hcov : forall a, In a atts -> mrelaxed largest q (mpar s) a).
    { intros a Ha. destruct (mi_cov HI Ha) as [X|(th & Hth & Hx)]; auto. rewrite (Hfin _ Hth) in Hx. destruct Hx. }
    exists (l ++ new). split; auto.
    - apply (mi_mono HI).
    - intros v. destruct (mi_val HI v) as [E|(a & Ha & Hc)]; auto. right. destruct (He1 a Ha) as [A B]. pose proof (HF _ A) as A'.
      pose proof (@g_out _ _ _ G _ _ A' B) as Bn.
      destruct Hc as [[E1 E2]|[E1 E2]]; subst v.
      + exists (src a). split; auto. split; auto.
      + exists (dst a). split; auto. split; auto. split; auto. now apply (@g_dual _ _ _ G).
    - intros u v (Hu & Hv & Hc). pose proof (@g_out _ _ _ G _ _ Hu Hv) as Hvn. destruct Hc as [Hc|Hc].
      + destruct (He2 u v Hc Hv) as (a & Ha & <- & <-). now apply Hcov.
      + apply (@g_dual _ _ _ G) in Hv; auto. destruct (He2 v u Hc Hv) as (a & Ha & <- & <-). now apply Hcov.
    - intros v. unfold unmark. rewrite unmark_spec. destruct (in_dec _ _ _) as [X|X]; auto.
      destruct (Nat.eq_dec (mchg s v) unemitted) as [E|E]; auto. exfalso. apply X. apply Hdec in E. now apply Hcalls.
    - intros v. unfold copied. rewrite copied_spec. destruct (in_dec _ _ _) as [X|X]; auto.
      apply lkey_inj with largest. pose proof (mi_mono HI v). rewrite Hcalls, Hlow in X. lia.
  Qed.

  Lemma mark_round F U q par chg U1 par' chg' next : Inv n U (plain F) -> (forall v, q v = par v) -> (forall v, chg v = unemitted) ->
    edgeMap_mark largest n outn m q U par chg U1 par' chg' next ->
    Inv n U1 (plain F) /\ forall U2 V, Inv n U2 (plain F) -> toSparse U2 = Some V ->
      exists F', round_ok F q par' chg' (add_to_vsubset next (new_vtxs V chg')) F'.
  Proof.
    intros HU Hq Hchg HR.
    destruct (choice_ok outn F m None lp_flags HU) as (c & U0 & Ec & HU1 & Hc).
    assert (Hout : forall s d, s < n -> In d (outn s) -> d < n) by (intros; eapply g_out; eauto).
    inversion HR as [U' E|U' sched E s Hfin|U' B W M ebs sched out E HB HW HM s Hfin Eout]; subst.
    - rewrite Ec in E. injection E as -> ->. split; auto. intros U2 V HU2 EV.
      apply (@finish_mark F U2 V q (mstart par' chg' []) [] (vs_empty n) []); auto; simpl.
      + split; [easy|]. intros u v Hu Hv'. exfalso. eapply Hc; eauto.
      + apply start_mi with (ts := []); auto.
      + constructor.
      + constructor.
      + intros d. split; [easy|]. intros (a & [] & _).
      + split; [split; constructor|]. now left.
      + reflexivity.
    - rewrite Ec in E. injection E as -> ->. split; auto. intros U2 V HU2 EV.
      pose proof (@forward_edges n outn F U1 HU1 Hc) as He.
      assert (HI : MI largest q (flat_map todo (forward_threads n outn U1)) s).
      { apply mi_exec; auto. now apply start_mi. }
      destruct (@forward_log n outn F U1 HU1 Hout (mlog s)) as (l & Hnd & Hl & HUl); auto; [apply (mi_log HI)|].
      eapply finish_mark; eauto; [now apply edges_visit|reflexivity].
    - rewrite Ec in E. injection E as -> ->. split; auto. intros U2 V HU2 EV. destruct Hc as [Hs Hne].
      pose proof (@chunk_edges n outn F U1 HU1 B W M ebs HB HW HM Hs Hne) as He.
      assert (HI : MI largest q (flat_map todo (chunk_threads outn U1 B (plain_bdeg B) ebs)) s).
      { apply mi_exec; auto. now apply start_mi. }
      destruct (@chunk_log n outn F U1 HU1 Hout B W M ebs HB HW HM Hs Hne (mlog s)) as (l & Hnd & Hl & EO & HUl).
      { apply (mi_log HI). }
      { apply (mi_nd HI). }
      rewrite Eout in EO. injection EO as ->. eapply finish_mark; eauto; [now apply edges_visit|reflexivity].
  Qed.

  Lemma forward_only (c : choice) U U' : edgeMap_choice m None outn lp_flags U = Some (c, U') -> c <> Pull.
  Proof.
    intros Ec ->. unfold edgeMap_choice, dense_choice in Ec. simpl in Ec.
    destruct (vm U =? 0); [discriminate|]. destruct (_ && _); [discriminate|]. destruct (toSparse U); [|discriminate].
    destruct (_ =? 0); [discriminate|]. destruct (_ && _); discriminate.
  Qed.
  Lemma mark_progress F U q par chg : Inv n U (plain F) -> (forall v, q v = par v) -> (forall v, chg v = unemitted) ->
    exists U1 par' chg' next, edgeMap_mark largest n outn m q U par chg U1 par' chg' next.
  Proof.
    intros HU Hq Hchg.
    destruct (choice_ok outn F m None lp_flags HU) as (c & U1 & Ec & HU1 & Hc).
    assert (Hout : forall s d, s < n -> In d (outn s) -> d < n) by (intros; eapply g_out; eauto).
    exists U1. pose proof (forward_only Ec) as Hnp. destruct c; try congruence.
    - do 3 eexists. eapply mark_nothing; eauto.
    - destruct (mfinish_exists largest q (le_n (mpotential (mstart par chg (forward_threads n outn U1))))) as [sched Hs].
      do 3 eexists. eapply mark_forward; eauto.
    - destruct Hc as [Hs Hne].
      destruct (mfinish_exists largest q (le_n (mpotential (mstart par chg (chunk_threads outn U1 1 (plain_bdeg 1) (fun _ => 1)))))) as [sched Hsc].
      set (s := mexec largest q sched _) in Hsc.
      assert (HI : MI largest q (flat_map todo (chunk_threads outn U1 1 (plain_bdeg 1) (fun _ => 1))) s).
      { apply mi_exec. now apply start_mi. }
      destruct (@chunk_log n outn F U1 HU1 Hout 1 1 1 (fun _ => 1) (le_n _) (le_n _) (le_n _) Hs Hne (mlog s)) as (l & Hnd & Hl & EO & HUl).
      { apply (mi_log HI). }
      { apply (mi_nd HI). }
      do 3 eexists. eapply mark_sparse with (sched := sched); eauto.
  Qed.

  (* -- the second traversal ------------------------------------------------------------- *)
  Definition recorded_at (F : list nat) (q par' : nat -> nat) (Ed' : nat -> option (nat * nat)) (v : nat) : Prop :=
    exists u, touched F u v /\ par' v = q u /\ (Ed' v = Some (u, v) \/ Ed' v = Some (v, u)).
  Lemma target_spec q par a v : target largest q par a = Some v <->
    dst a = v /\ key (q (src a)) < key (q v) /\ par v = q (src a) \/ src a = v /\ key (q (dst a)) < key (q v) /\ par v = q (dst a).
  Proof.
    unfold target. rewrite !lp_less_key. destruct (Nat.ltb_spec (key (q (src a))) (key (q (dst a)))) as [H|H].
    - destruct (Nat.eqb_spec (par (dst a)) (q (src a))) as [E|E].
      + split; [intros X; injection X as <-; auto|]. intros [(Y & _)|(Y & X & _)]; [congruence|subst v; lia].
      + split; [discriminate|]. intros [(<- & _ & X)|(<- & X & _)]; [congruence|lia].
    - destruct (Nat.ltb_spec (key (q (dst a))) (key (q (src a)))) as [H'|H'].
      + destruct (Nat.eqb_spec (par (src a)) (q (dst a))) as [E|E].
        * split; [intros X; injection X as <-; auto|]. intros [(Y & X & _)|(Y & _)]; [subst v; lia|congruence].
        * split; [discriminate|]. intros [(<- & X & _)|(<- & _ & X)]; [lia|congruence].
      + split; [discriminate|]. intros [(<- & X & _)|(<- & X & _)]; lia.
  Qed.
  Lemma finish_record F q par' Ed s atts : (forall v, In v F -> v < n) -> visits F atts ->
    (forall v, key (par' v) <= key (q v)) -> (forall v, par' v = q v \/ exists u, touched F u v /\ par' v = q u) ->
    EI largest q par' atts Ed s -> efinished s -> forall v,
      key (par' v) < key (q v) /\ recorded_at F q par' (eedges s) v \/ key (par' v) = key (q v) /\ eedges s v = Ed v.
  Proof.
    intros HF (He1 & He2) Hm Hval HI Hfin v. destruct (ei_end HI Hfin v) as [(a & Ha & Ht & E)|[E Hn]].
    - left. destruct (He1 a Ha) as [A B]. pose proof (HF _ A) as A'. pose proof (@g_out _ _ _ G _ _ A' B) as Bn.
      apply target_spec in Ht as [(E1 & E2 & E3)|(E1 & E2 & E3)]; (split; [now rewrite E3|]); subst v.
      + exists (src a). split; [split; auto|]. auto.
      + exists (dst a). split; [|auto]. split; auto. split; auto. now apply (@g_dual _ _ _ G).
    - right. split; auto. pose proof (Hm v). destruct (Nat.eq_dec (key (par' v)) (key (q v))) as [Y|Y]; auto. exfalso.
      destruct (Hval v) as [Z|(u & (Hu & Hv & Hc) & Z)]; [congruence|]. pose proof (@g_out _ _ _ G _ _ Hu Hv) as Hvn.
      destruct Hc as [Hc|Hc].
      + destruct (He2 u v Hc Hv) as (a & Ha & <- & <-). apply (Hn a Ha). apply target_spec. left. repeat split; auto. rewrite <- Z. lia.
      + apply (@g_dual _ _ _ G) in Hv; auto. destruct (He2 v u Hc Hv) as (a & Ha & <- & <-). apply (Hn a Ha).
        apply target_spec. right. repeat split; auto. rewrite <- Z. lia.
  Qed.
  Lemma record_round F q par' U1 Ed U2 Ed' : Inv n U1 (plain F) ->
    (forall v, key (par' v) <= key (q v)) -> (forall v, par' v = q v \/ exists u, touched F u v /\ par' v = q u) ->
    edgeMap_record largest n outn m q par' U1 Ed U2 Ed' ->
    Inv n U2 (plain F) /\ forall v,
      key (par' v) < key (q v) /\ recorded_at F q par' Ed' v \/ key (par' v) = key (q v) /\ Ed' v = Ed v.
  Proof.
    intros HU Hm Hval HR. destruct (choice_ok outn F m None lp_flags HU) as (c & U0 & Ec & HU1 & Hc).
    assert (HF : forall v, In v F -> v < n) by (intros v; now apply (F_lt' F HU)).
    inversion HR as [U' E|U' sched E s Hfin|U' sched E s Hfin]; subst; rewrite Ec in E; injection E as -> ->; split; auto.
    - intros v. pose proof (Hm v). destruct (Hval v) as [E|(u & (Hu & Hv & Hd) & E)]; [right; split; auto; congruence|].
      exfalso. pose proof (@g_out _ _ _ G _ _ Hu Hv) as Hvn. destruct Hd as [Hd|Hd]; [eapply Hc; eauto|].
      apply (@g_dual _ _ _ G) in Hv; auto. eapply Hc; eauto.
    - apply (finish_record (atts := flat_map todo (forward_threads n outn U2))); auto; [apply edges_visit, forward_edges; auto|].
      apply ei_exec. now apply start_ei.
    - destruct Hc as [Hd Hne]. apply (finish_record (atts := flat_map todo (each_threads outn U2))); auto; [now apply each_visit|].
      apply ei_exec. now apply start_ei.
  Qed.
  Lemma record_progress F q par' U1 Ed : Inv n U1 (plain F) ->
    exists U2 Ed' V, edgeMap_record largest n outn m q par' U1 Ed U2 Ed' /\ toSparse U2 = Some V.
  Proof.
    intros HU. destruct (choice_ok outn F m None lp_flags HU) as (c & U2 & Ec & HU2 & Hc).
    destruct (toSparse_inv HU2) as (V & EV & _ & _).
    exists U2. pose proof (forward_only Ec) as Hnp. destruct c; try congruence.
    - do 2 eexists. split; [eapply record_nothing; eauto|eauto].
    - destruct (efinish_exists largest q par' (le_n (epotential (estart Ed (forward_threads n outn U2))))) as [sched Hs].
      do 2 eexists. split; [eapply record_forward; eauto|eauto].
    - destruct (efinish_exists largest q par' (le_n (epotential (estart Ed (each_threads outn U2))))) as [sched Hs].
      do 2 eexists. split; [eapply record_sparse; eauto|eauto].
  Qed.

  (* -- the rounds ------------------------------------------------------------------------ *)
  Variable freq : option nat.
  Variable par0 : nat -> nat.
  Variable Ed0 : nat -> option (nat * nat).
  (* v has its first edge and label, or was recorded with a neighbour that carried its label
     j rounds after the start, when no vertex within distance j of v had a label as good *)
  Definition edge_ok (k : nat) (par : nat -> nat) (Ed : nat -> option (nat * nat)) (v : nat) : Prop :=
    par v = par0 v /\ Ed v = Ed0 v \/
    exists p j u, p < n /\ In v (outn p) /\ (Ed v = Some (p, v) \/ Ed v = Some (v, p)) /\
      u < n /\ walk outn u j p /\ par v = par0 u /\ j < k /\
      forall w i, w < n -> walk outn w i v -> i <= j -> key (par v) < key (par0 w).
  Record QInv (k : nat) (prev par chg : nat -> nat) (Ed : nat -> option (nat * nat)) (U : vset unit) (F : list nat) : Prop := {
    q_inv : Inv n U (plain F);
    q_prev : forall v, prev v = par v;
    q_chg : forall v, chg v = unemitted;
    q_val : forall v, v < n -> exists u j, u < n /\ walk outn u j v /\ j <= k /\ par v = par0 u;
    q_rel : forall u v, u < n -> In v (outn u) -> ~ In u F -> ~ In v F -> key (par v) <= key (par u);
    q_bound : forall u j v, u < n -> walk outn u j v -> j <= k -> key (par v) <= key (par0 u);
    q_new : forall u j v, u < n -> In v F -> walk outn u j v -> j < k -> key (par v) < key (par0 u);
    q_edge : forall v, v < n -> edge_ok k par Ed v }.

  Lemma first_inv : Inv n (first_frontier n freq par0) (plain (filter (fun v => match freq with None => true | Some f => negb (par0 v =? f) end) (seq 0 n))).
  Proof.
    set (f := fun v => match freq with None => true | Some f => negb (par0 v =? f) end).
    apply (built_inv tt). split; [split|].
    - unfold plain. rewrite map_map. simpl. rewrite map_id. apply NoDup_filter, seq_NoDup.
    - unfold plain. apply Forall_map. apply Forall_forall. intros v Hv. simpl. apply filter_In in Hv as [Hv _]. apply in_seq in Hv. lia.
    - right. right. eexists. split; [|split; [|left; reflexivity]].
      + now rewrite map_length, seq_length.
      + intros v []. unfold stored. unfold plain. rewrite in_map_iff. split.
        * intros H. assert (Hv : v < n) by (erewrite <- (seq_length n 0), <- (map_length (fun v => (f v, tt))); apply nth_error_Some; unfold f; congruence).
          rewrite nth_error_map, nth_error_nth' with (d := 0), seq_nth in H by (rewrite ?seq_length; auto). simpl in H. injection H as H.
          exists v. split; auto. apply filter_In. split; auto. apply in_seq. lia.
        * intros (u & E & Hu). injection E as ->. apply filter_In in Hu as [Hu Hf]. apply in_seq in Hu.
          rewrite nth_error_map, nth_error_nth' with (d := 0), seq_nth by (rewrite ?seq_length; lia). simpl. f_equal. f_equal. exact Hf.
  Qed.
  Lemma start_qinv : exists F, QInv 0 par0 par0 (fun _ => unemitted) Ed0 (first_frontier n freq par0) F.
  Proof.
    eexists. split; try exact first_inv; auto.
    - intros v Hv. exists v, 0. repeat split; auto. constructor.
    - intros u v Hu Hv Hn1 Hn2. pose proof (@g_out _ _ _ G _ _ Hu Hv) as Hvn.
      destruct freq as [f|]; [|exfalso; apply Hn1; apply filter_In; split; auto; apply in_seq; lia].
      assert (X : forall w, w < n -> ~ In w (filter (fun v => negb (par0 v =? f)) (seq 0 n)) -> par0 w = f).
      { intros w Hw Hnw. destruct (Nat.eqb_spec (par0 w) f) as [E|E]; auto. exfalso. apply Hnw. apply filter_In.
        split; [apply in_seq; lia|]. now rewrite (proj2 (Nat.eqb_neq _ _)). }
      rewrite (X u), (X v); auto.
    - intros u j v Hu Hw Hj. assert (j = 0) by lia. subst. inversion Hw. subst. lia.
    - intros. lia.
    - intros v Hv. now left.
  Qed.

  Lemma round_qinv k prev par chg Ed U F U1 par' chg' next U2 Ed' V : QInv k prev par chg Ed U F ->
    edgeMap_mark largest n outn m prev U par chg U1 par' chg' next ->
    edgeMap_record largest n outn m prev par' U1 Ed U2 Ed' -> toSparse U2 = Some V ->
    let next' := add_to_vsubset next (new_vtxs V chg') in
    exists F', QInv (S k) (copied next' par' prev) par' (unmark next' chg') Ed' next' F'.
  Proof.
    intros HI HM HR EV next'. destruct (mark_round (q_inv HI) (q_prev HI) (q_chg HI) HM) as [HU1 Hmk].
    (* the labels do not depend on the representation of the frontier *)
    destruct (toSparse_inv HU1) as (V1 & EV1 & _ & _). destruct (Hmk U1 V1 HU1 EV1) as (F1 & R1).
    destruct (record_round HU1 (r_mono R1) (r_val R1) HR) as [HU2 HE].
    destruct (Hmk U2 V HU2 EV) as (F' & HO). clear R1 EV1 V1 F1 Hmk.
    exists F'. pose proof (r_mono HO) as Hm. assert (Hm' : forall v, key (par' v) <= key (par v)) by (intros v; rewrite <- (q_prev HI); auto).
    assert (Hstep : forall u v, u < n -> In v (outn u) -> key (par' v) <= key (par u)).
    { intros u v Hu Hv. rewrite <- (q_prev HI u). destruct (in_dec Nat.eq_dec u F) as [Hin|Hin]; [apply (r_rel HO); repeat split; auto|].
      destruct (in_dec Nat.eq_dec v F) as [Hin'|Hin']; [apply (r_rel HO); repeat split; auto|].
      rewrite (q_prev HI). pose proof (Hm' v). pose proof (q_rel HI Hu Hv Hin Hin'). lia. }
    split.
    - apply (r_inv HO).
    - apply (r_prev HO).
    - apply (r_chg HO).
    - intros v Hv. destruct (r_val HO v) as [E|(u & (Hu & Huv & _) & E)]; rewrite (q_prev HI) in E.
      + destruct (q_val HI Hv) as (w & j & A & B & C & D). exists w, j. repeat split; auto. congruence.
      + destruct (q_val HI Hu) as (w & j & A & B & C & D). exists w, (S j). repeat split; auto; [econstructor; eauto|lia|congruence].
    - intros u v Hu Hv Hn1 Hn2. assert (E : key (par' u) = key (par u)).
      { pose proof (Hm' u). destruct (Nat.eq_dec (key (par' u)) (key (par u))); auto. exfalso. apply Hn1, (r_F HO). rewrite (q_prev HI). lia. }
      rewrite E. auto.
    - intros u j v Hu Hw Hj. inversion Hw as [|i w ? Hw' Hin]; subst.
      + pose proof (Hm' v). pose proof (q_bound HI Hu (walk_0 outn v) ltac:(lia)). lia.
      + pose proof (q_bound HI Hu Hw' ltac:(lia)). pose proof (Hstep w v (walk_lt G Hu Hw') Hin). lia.
    - intros u j v Hu Hv Hw Hj. apply (r_F HO) in Hv. rewrite (q_prev HI) in Hv. pose proof (q_bound HI Hu Hw ltac:(lia)). lia.
    - intros v Hv. destruct (HE v) as [[Hlt (p & (Hp & Hpv & _) & E & Er)]|[Heq E]].
      + right. rewrite (q_prev HI) in E, Hlt. destruct (q_val HI Hp) as (u & j & A & B & C & D).
        exists p, j, u. repeat split; auto; [congruence|lia|]. intros w i Hw Hwi Hi. pose proof (q_bound HI Hw Hwi ltac:(lia)). lia.
      + rewrite (q_prev HI) in Heq. apply lkey_inj in Heq. unfold edge_ok. rewrite Heq, E.
        destruct (q_edge HI Hv) as [X|(p & j & u & A1 & A2 & A3 & A4 & A5 & A6 & A7 & A8)]; [now left|right].
        exists p, j, u. repeat split; auto.
  Qed.

  Lemma qfrontier_round k prev par chg Ed U F : QInv k prev par chg Ed U F -> size U <> 0 -> k < n.
  Proof.
    intros HI Hs. unfold size in Hs. rewrite (i_m (q_inv HI)) in Hs. unfold plain in Hs. rewrite map_length in Hs.
    destruct F as [|v F]; [now contradiction Hs|].
    destruct (Nat.lt_ge_cases k n) as [|Hk]; auto. exfalso.
    assert (Hv : v < n) by (apply (F_lt' (v :: F) (q_inv HI)); now left).
    destruct (q_val HI Hv) as (w & j0 & Hw & Hr & _ & E).
    destruct (short_walk G Hw (ex_intro _ j0 Hr)) as (j & Hj & Hwk).
    assert (Hlt : key (par v) < key (par0 w)) by (eapply (q_new HI); eauto; [now left|lia]).
    rewrite E in Hlt. lia.
  Qed.
  Lemma loop_qinv k prev par chg Ed U : pf_loop largest n outn m freq par0 Ed0 k prev par chg Ed U ->
    k <= n /\ exists F, QInv k prev par chg Ed U F.
  Proof.
    intros H. induction H as [|k prev par chg Ed U U1 par' chg' next U2 Ed' V H [Hk [F HI]] Hs HM HR EV next'].
    - split; [lia|]. apply start_qinv.
    - split; [now apply (qfrontier_round HI)|]. eapply round_qinv; eauto.
  Qed.
  Lemma pf_progress k prev par chg Ed U F : QInv k prev par chg Ed U F ->
    exists U1 par' chg' next U2 Ed' V, edgeMap_mark largest n outn m prev U par chg U1 par' chg' next /\ edgeMap_record largest n outn m prev par' U1 Ed U2 Ed' /\ toSparse U2 = Some V.
  Proof.
    intros HI. destruct (mark_progress (q_inv HI) (q_prev HI) (q_chg HI)) as (U1 & par' & chg' & next & HM).
    destruct (mark_round (q_inv HI) (q_prev HI) (q_chg HI) HM) as [HU1 _].
    destruct (record_progress prev par' Ed HU1) as (U2 & Ed' & V & HR & EV). exists U1, par', chg', next, U2, Ed', V. auto.
  Qed.
  Lemma pf_ends : exists par Ed, pf_returns largest n outn m freq par0 Ed0 par Ed.
  Proof.
    assert (H : forall j, j <= S n -> (exists par Ed, pf_returns largest n outn m freq par0 Ed0 par Ed)
              \/ exists prev par chg Ed U, pf_loop largest n outn m freq par0 Ed0 j prev par chg Ed U).
    { induction j as [|j IH]; intros Hj; [right; do 5 eexists; apply pf_start|].
      destruct IH as [H|(prev & par & chg & Ed & U & H)]; [lia|auto|].
      destruct (Nat.eq_dec (size U) 0) as [E|E]; [left; exists par, Ed, j, prev, chg, U; auto|].
      destruct (loop_qinv H) as [_ [F HI]].
      destruct (pf_progress HI) as (U1 & par' & chg' & next & U2 & Ed' & V & HM & HR & EV).
      right. do 5 eexists. eapply pf_round; eauto. }
    destruct (H (S n) (le_n _)) as [X|(prev & par & chg & Ed & U & X)]; auto. apply loop_qinv in X as [X _]. lia.
  Qed.

  (* -- the end --------------------------------------------------------------------------- *)
  Section End.
    Variables (k : nat) (prev par chg : nat -> nat) (Ed : nat -> option (nat * nat)) (U : vset unit) (F : list nat).
    Hypothesis HI : QInv k prev par chg Ed U F.
    Hypothesis Hend : size U = 0.
    Lemma end_empty : forall v, ~ In v F.
    Proof.
      unfold size in Hend. rewrite (i_m (q_inv HI)) in Hend. unfold plain in Hend. rewrite map_length in Hend.
      destruct F; [auto|discriminate].
    Qed.
    Lemma end_same u v : u < n -> reachable outn u v -> par v = par u.
    Proof.
      intros Hu [j Hw]. induction Hw as [|j v w Hw IH Hin]; auto. rewrite <- IH. apply lkey_inj with largest.
      pose proof (walk_lt G Hu Hw) as Hv. pose proof (@g_out _ _ _ G v w Hv Hin) as Hw'.
      pose proof (q_rel HI Hv Hin (@end_empty v) (@end_empty w)).
      pose proof (q_rel HI Hw' (proj1 (@g_dual _ _ _ G v w Hv Hw') Hin) (@end_empty w) (@end_empty v)). lia.
    Qed.
    Lemma end_least u v : u < n -> reachable outn u v -> key (par u) <= key (par0 v).
    Proof.
      intros Hu Hr. rewrite <- (end_same Hu Hr). pose proof (reach_lt G Hu Hr) as Hv.
      apply (q_bound HI Hv (walk_0 outn v)). lia.
    Qed.
    Lemma end_val v : v < n -> exists u, u < n /\ reachable outn u v /\ par v = par0 u.
    Proof. intros Hv. destruct (q_val HI Hv) as (u & j & A & B & C & D). exists u. repeat split; auto. now exists j. Qed.
  End End.
End Round.
