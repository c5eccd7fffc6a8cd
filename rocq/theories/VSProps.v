(* C14, C15, C16: vertex subsets. *)
From Verif Require Import Base ListUtil VSModel VSSpec VSProofs.

(* C14: any conversion history, from any constructor *)
Theorem C14_conversions : forall A (dflt : A) n V l, built n V l ->
  forall h, exists V', converts dflt h V = Some V' /\ shows dflt n V' l.
Proof.
  intros A dflt n V l Hb h. apply (built_inv dflt) in Hb.
  destruct (converts_inv dflt h Hb) as (V' & E & HI). exists V'. split; auto. now apply shows_inv.
Qed.
(* a constructor called with a wrong positive count is caught by the conversion *)
Theorem C14_wrong_count_aborts : forall A n m (d : list (bool * A)) l,
  subset_of n l -> length d = n -> (forall v x, stored d v x <-> In (v, x) l) ->
  0 < m -> m <> length l -> toSparse (vs_dense_m n m d) = None.
Proof.
  intros A n m d l Hs Hl Hd Hm Hne. unfold toSparse. simpl. rewrite (proj2 (Nat.ltb_lt _ _) Hm).
  rewrite firstn_all2 by lia. rewrite (Permutation_length (l' := l)).
  - now rewrite (proj2 (Nat.eqb_neq _ _) (not_eq_sym Hne)).
  - destruct d as [|[b x] d'].
    + destruct l as [|[v x] l]; simpl; auto. exfalso. pose proof (proj2 (Hd v x) (or_introl eq_refl)) as H.
      unfold stored in H. destruct v; discriminate.
    + apply (pack_perm Hs). split; auto.
Qed.

(* only the representation in use exists *)
Definition one_representation (V : vset unit) : Prop :=
  if isDense V then vs V = [] else vd V = [].

Lemma add_inv n (W : vset unit) l new : Inv n W l -> one_representation W ->
  NoDup (map fst l ++ new) -> Forall (fun v => v < n) new -> Inv n (add_to_vsubset W new) (l ++ plain new).
Proof.
  intros [Hn Hm [Hs1 Hs2] H1 H2 H3 H4] Hone Hnd Hlt. unfold one_representation in Hone. unfold add_to_vsubset.
  assert (Hlen : length (plain new) = length new) by apply map_length.
  assert (Hsub : subset_of n (l ++ plain new)).
  { split.
    - rewrite map_app. unfold plain. rewrite map_map, map_id. auto.
    - apply Forall_app. split; auto. apply Forall_map. auto. }
  destruct (isDense W).
  - specialize (H3 eq_refl). destruct H3 as [Hd1 Hd2].
    assert (E : forall d, fold_left (fun d v => lset d v (true, tt)) new d = fold_left (@write_true unit) (plain new) d).
    { clear. induction new; intros d; simpl; auto. }
    assert (Hd : dOK n (fold_left (fun d v => lset d v (true, tt)) new (vd W)) (l ++ plain new)).
    { rewrite E. split; [now rewrite write_all_length|].
      intros v x. rewrite (write_all tt).
      - rewrite in_app_iff, Hd2. reflexivity.
      - destruct Hsub as [Hsub _]. rewrite map_app in Hsub. now apply NoDup_app_iff in Hsub.
      - rewrite Hd1. destruct Hsub as [_ Hf]. apply Forall_app in Hf. apply Hf.
      - intros e He. unfold plain in He. apply in_map_iff in He as (u & <- & Hv). simpl.
        destruct (nth u (vd W) (false, tt)) as [b y] eqn:Ey. destruct b; auto. exfalso.
        assert (Hy : In (u, y) l). { apply Hd2. apply (stored_nth tt). split; auto. rewrite Hd1. rewrite Forall_forall in Hlt. auto. }
        apply NoDup_app_iff in Hnd as (_ & _ & Hnd). apply (Hnd u); auto. apply in_map_iff. exists (u, y). auto. }
    split; simpl; auto; try discriminate. rewrite app_length. lia.
  - specialize (H4 eq_refl).
    assert (E : map (fun i => if i <? vm W then nth i (vs W) (0, tt) else (nth (i - vm W) new 0, tt))
                 (seq 0 (length new + vm W)) = vs W ++ plain new).
    { assert (Hvl : length (vs W) = vm W) by (rewrite Hm; now apply Permutation_length).
      rewrite Nat.add_comm. apply (@list_ext_nth _ _ _ (0, tt)).
      - rewrite map_length, seq_length, app_length, Hlen. lia.
      - rewrite map_length, seq_length. intros i Hi.
        set (f := fun i => if i <? vm W then nth i (vs W) (0, tt) else (nth (i - vm W) new 0, tt)).
        rewrite (nth_indep _ (0, tt) (f 0)) by now rewrite map_length, seq_length.
        rewrite map_nth, seq_nth by auto. unfold f. simpl. destruct (Nat.ltb_spec i (vm W)).
        + now rewrite app_nth1 by lia.
        + rewrite app_nth2 by lia. rewrite Hvl. unfold plain. now rewrite (map_nth (fun v => (v, tt)) new 0). }
    split; simpl; auto; try discriminate.
    + rewrite app_length. lia.
    + rewrite E. right. now apply Permutation_app_tail.
    + intros _. rewrite E. now apply Permutation_app_tail.
Qed.

(* C15: with one representation, adding fresh distinct vertices adds exactly them,
   and stays correct under later conversions *)
Theorem C15_add : forall n V l new h W, built n V l -> converts tt h V = Some W -> one_representation W ->
  NoDup (map fst l ++ new) -> Forall (fun v => v < n) new ->
  forall h', exists V', converts tt h' (add_to_vsubset W new) = Some V' /\ shows tt n V' (l ++ plain new).
Proof.
  intros n V l new h W Hb HW Hone Hnd Hlt h'. apply (built_inv tt) in Hb.
  destruct (converts_inv tt h Hb) as (W' & E & HI). rewrite HW in E. injection E as <-.
  destruct (converts_inv tt h' (add_inv HI Hone Hnd Hlt)) as (V' & E & HI'). exists V'. split; auto. now apply shows_inv.
Qed.

(* with both representations present the addition is lost on the next conversion:
   to dense, no added vertex is a member; to sparse, the list still has only the old
   members although the reported size has grown, so a traversal reads past its end *)
Theorem C15_both_representations_refuted : forall n l new,
  subset_of n l -> l <> [] -> new <> [] -> NoDup (map fst l ++ new) -> Forall (fun v => v < n) new ->
  (exists W V', converts tt [ToDense; ToSparse] (vs_sparse n l) = Some W /\
     converts tt [ToDense] (add_to_vsubset W new) = Some V' /\
     forall v, In v new -> isIn tt V' v = false) /\
  (exists W V', converts tt [ToDense] (vs_sparse n l) = Some W /\
     converts tt [ToSparse] (add_to_vsubset W new) = Some V' /\
     isDense V' = false /\ vs V' = l /\ size V' = length l + length new).
Proof.
  intros n l new Hs Hl Hnew Hnd Hlt.
  assert (Hn : 0 < n). { destruct Hs as [_ Hf]. destruct l; [congruence|]. inversion Hf. lia. }
  assert (Hll : length l <> 0) by (destruct l; simpl; congruence).
  pose proof (dOK_build tt Hs (Permutation_refl l)) as Hd.
  assert (Hdl : length (fold_left (@write_true unit) (firstn (length l) l) (repeat (false, tt) n)) <> 0)
    by (destruct Hd as [Hd1 _]; lia).
  split.
  - eexists. eexists. split; [|split; [reflexivity|]].
    + unfold converts. simpl. unfold toSparse. simpl. now rewrite (proj2 (Nat.eqb_neq _ _) Hll).
    + intros v Hv. apply not_true_is_false. intros H. unfold isIn in H. simpl in H.
      rewrite (proj2 (Nat.eqb_neq _ _) Hdl) in H.
      set (V0 := {| vn := n; vm := length l; vs := l;
             vd := fold_left (@write_true unit) (firstn (length l) l) (repeat (false, tt) n); isDense := true |}).
      assert (Hlv : v < n) by (rewrite Forall_forall in Hlt; auto).
      pose proof (proj1 (@isIn_stored unit tt n V0 l v Hd Hlv) H) as Hin.
      apply NoDup_app_iff in Hnd as (_ & _ & Hnd). now apply (Hnd v).
  - eexists. eexists. split; [reflexivity|]. split; [|split; [|split]].
    + unfold converts. simpl. unfold toSparse. simpl. rewrite (proj2 (Nat.eqb_neq _ _) Hll). simpl. reflexivity.
    + reflexivity.
    + reflexivity.
    + reflexivity.
Qed.

Section FilterProofs.
  Variable A : Type.
  Variable dflt : A.
  Definition strip (l : list (nat * A)) : list (nat * unit) := map (fun e => (fst e, tt)) l.

  Lemma subset_strip n (f : nat * A -> bool) l : subset_of n l -> subset_of n (strip (filter f l)).
  Proof.
    intros [H1 H2]. unfold strip. split.
    - rewrite map_map. simpl. induction l as [|e l IH]; simpl; [constructor|].
      inversion H1; inversion H2; subst. destruct (f e); simpl; auto. constructor; auto.
      rewrite in_map_iff. intros (e' & E & He). apply filter_In in He. apply H3. rewrite <- E. apply in_map, He.
    - apply Forall_map. apply Forall_forall. intros e He. apply filter_In in He. rewrite Forall_forall in H2. apply H2, He.
  Qed.

  Lemma filter_dense_inv n V l p : Inv n V l ->
    Inv n (vertexFilter_dense dflt V p) (strip (filter (fun e => p (fst e) (snd e)) l)).
  Proof.
    intros HI. apply (toDense_inv dflt) in HI. unfold vertexFilter_dense. set (W := toDense dflt V) in *.
    pose proof (i_dd HI eq_refl) as Hd. rewrite (i_n HI).
    set (d := map _ _). assert (Hdl : length d = n) by (unfold d; now rewrite map_length, seq_length).
    assert (Hok : dOK n d (strip (filter (fun e => p (fst e) (snd e)) l))).
    { split; auto. intros v []. rewrite (stored_nth tt), Hdl. unfold strip. rewrite in_map_iff.
      assert (Hnth : v < n -> nth v d (false, tt)
        = (if isIn dflt W v then p v (ithData dflt W v) else false, tt)).
      { intros Hv. unfold d. set (f := fun i => _).
        rewrite (nth_indep _ (false, tt) (f 0)) by now rewrite map_length, seq_length.
        now rewrite map_nth, seq_nth. }
      split.
      - intros [Hv E]. rewrite Hnth in E by auto. destruct (isIn dflt W v) eqn:Ei; [|discriminate].
        injection E as E. apply (proj1 (@isIn_stored A dflt n W l v Hd Hv)) in Ei.
        apply in_map_iff in Ei as ([v' x] & Ev & Hx). simpl in Ev. subst v'.
        exists (v, x). split; auto. apply filter_In. split; auto. simpl.
        now rewrite (@ithData_stored A dflt n W l v x Hd Hx) in E.
      - intros ([v' x] & Ev & Hx). simpl in Ev. injection Ev as ->. apply filter_In in Hx as [Hx Hp].
        assert (Hv : v < n). { destruct (i_sub HI) as [_ Hf]. rewrite Forall_forall in Hf. apply (Hf _ Hx). }
        split; auto. rewrite Hnth by auto.
        rewrite (proj2 (@isIn_stored A dflt n W l v Hd Hv)) by (apply in_map_iff; exists (v, x); auto).
        rewrite (@ithData_stored A dflt n W l v x Hd Hx). simpl in Hp. now rewrite Hp. }
    pose proof (subset_strip (fun e => p (fst e) (snd e)) (i_sub HI)) as Hs.
    assert (Hc : count_true d = length (strip (filter (fun e => p (fst e) (snd e)) l))).
    { rewrite (count_true_pack d 0). now apply Permutation_length, (pack_perm Hs Hok). }
    split; simpl; auto. discriminate.
  Qed.

  Lemma Inv_perm B n (V : vset B) l l' : Inv n V l -> Permutation l l' -> Inv n V l'.
  Proof.
    intros [Hn Hm [Hs1 Hs2] H1 H2 H3 H4] Hp.
    assert (Hd : forall d, dOK n d l -> dOK n d l').
    { intros d [E1 E2]. split; auto. intros v x. rewrite E2. split; apply Permutation_in; auto. now apply Permutation_sym. }
    split; auto.
    - rewrite Hm. now apply Permutation_length.
    - split.
      + apply Permutation_NoDup with (map fst l); auto. now apply Permutation_map.
      + apply Forall_forall. intros e He. rewrite Forall_forall in Hs2. apply Hs2. apply Permutation_in with l'; auto. now apply Permutation_sym.
    - destruct H1 as [?|H1]; auto. right. now transitivity l.
    - destruct H2 as [?|H2]; auto.
    - intros E. now transitivity l; auto.
  Qed.

  Lemma filter_sparse_inv n V l p : Inv n V l -> exists R,
    vertexFilter_sparse dflt V p = Some R /\ Inv n R (strip (filter (fun e => p (fst e) (snd e)) l)).
  Proof.
    intros HI. unfold vertexFilter_sparse. destruct (Nat.eqb_spec (vm V) 0) as [E|E].
    - rewrite (i_m HI) in E. apply length_zero_iff_nil in E. rewrite E. simpl. eexists. split; [reflexivity|].
      rewrite (i_n HI). apply empty_inv.
    - assert (Hm := i_m HI). destruct (toSparse_inv HI) as (W & -> & HI' & Ed). eexists. split; [reflexivity|].
      pose proof (i_ss HI' Ed) as Hp. rewrite (i_n HI').
      assert (Hk : map (fun i => (fst (nth i (vs W) (0, dflt)), tt))
          (List.filter (fun i => p (fst (nth i (vs W) (0, dflt))) (snd (nth i (vs W) (0, dflt)))) (seq 0 (vm W)))
          = strip (filter (fun e => p (fst e) (snd e)) (vs W))).
      { rewrite (i_m HI'), <- (Permutation_length Hp). transitivity (strip (filter (fun e => p (fst e) (snd e)) (map (fun i => nth i (vs W) (0, dflt)) (seq 0 (length (vs W))))));
          [|now rewrite map_nth_seq].
        unfold strip. generalize (seq 0 (length (vs W))). intros L.
        induction L as [|i L IH]; simpl; auto. destruct (p _ _); simpl; now rewrite IH. }
      rewrite Hk. apply Inv_perm with (strip (filter (fun e => p (fst e) (snd e)) (vs W))).
      + apply sparse_inv. apply subset_strip. destruct (i_sub HI') as [H1 H2]. split.
        * apply Permutation_NoDup with (map fst l); auto. apply Permutation_map. now apply Permutation_sym.
        * apply Forall_forall. intros e He. rewrite Forall_forall in H2. apply H2. now apply (Permutation_in _ Hp).
      + apply Permutation_map. now apply perm_filter.
  Qed.
End FilterProofs.

(* C16: filtering in every mode, after any conversion history, with the result
   converted at will *)
Theorem C16_vertexFilter : forall A (dflt : A) n V l h W (p : nat -> A -> bool) fl,
  built n V l -> converts dflt h V = Some W ->
  exists R, vertexFilter dflt W p fl = Some R /\
    forall h', exists R', converts tt h' R = Some R' /\
      shows tt n R' (plain (map fst (filter (fun e => p (fst e) (snd e)) l))).
Proof.
  intros A dflt n V l h W p fl Hb HW. apply (built_inv dflt) in Hb.
  destruct (converts_inv dflt h Hb) as (W' & E & HI). rewrite HW in E. injection E as <-.
  assert (Hk : exists R, vertexFilter dflt W p fl = Some R /\ Inv n R (strip (filter (fun e => p (fst e) (snd e)) l))).
  { pose proof (@filter_dense_inv A dflt n W l p HI) as Hd.
    pose proof (@filter_sparse_inv A dflt n W l p HI) as Hs.
    destruct fl; simpl; eauto. destruct (isDense W); eauto. }
  destruct Hk as (R & ER & HR). exists R. split; auto. intros h'.
  destruct (converts_inv tt h' HR) as (R' & E & HI'). exists R'. split; auto.
  replace (plain _) with (strip (filter (fun e => p (fst e) (snd e)) l)); [now apply shows_inv|].
  unfold plain, strip. now rewrite map_map.
Qed.

(* Non-vacuity *)
Example vs_ex_built : built 5 (vs_sparse 5 [(3, 30); (1, 10)]) [(3, 30); (1, 10)].
Proof. split; [|now right; left]. split; repeat constructor; simpl; intuition lia. Qed.
Example vs_ex_dense : built 3 (vs_dense 3 [(false, 0); (true, 7); (true, 8)]) [(2, 8); (1, 7)].
Proof.
  split; [split; repeat constructor; simpl; intuition lia|]. right. right. eexists. split; [|split; [|now left]]; auto.
  intros v x. unfold stored. destruct v as [|[|[|[|v]]]]; simpl; split; intros H; try discriminate;
    try (injection H as <-; auto); intuition congruence.
Qed.
Example vs_ex_run : exists V', converts 0 [ToDense; ToSparse; ToDense] (vs_sparse 5 [(3, 30); (1, 10)]) = Some V' /\
  vertexMap_calls 0 V' = [(1, 10); (3, 30)].
Proof. eexists. split; reflexivity. Qed.
Example vs_ex_add : one_representation (vs_sparse 4 (plain [2])) /\
  vertexMap_calls tt (add_to_vsubset (vs_sparse 4 (plain [2])) [0; 3]) = plain [2; 0; 3].
Proof. split; reflexivity. Qed.

Print Assumptions C14_conversions.
Print Assumptions C14_wrong_count_aborts.
Print Assumptions C15_add.
Print Assumptions C15_both_representations_refuted.
Print Assumptions C16_vertexFilter.
