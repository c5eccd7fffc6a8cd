(* Proofs about the low-diameter decomposition. *)
From Coq Require Import Permutation.
From Verif Require Import Base ListUtil VSModel VSSpec VSProofs VSProps EMModel EMSpec FAModel FASpec FAProofs LDModel LDSpec.

Lemma built_one n (V : vset unit) l : built n V l -> one_representation V.
Proof. intros [_ [[-> _]|[->|(d & _ & _ & [->| ->])]]]; unfold one_representation; simpl; auto. Qed.

(* adding to a freshly built subset gives what a constructor gives *)
Lemma add_built n V F new : built n V (plain F) -> NoDup (F ++ new) -> Forall (fun v => v < n) new ->
  built n (add_to_vsubset V new) (plain (F ++ new)).
Proof.
  intros Hb Hnd Hlt.
  pose proof (built_one Hb) as Hone. pose proof (built_inv tt Hb) as HI.
  assert (E : plain (F ++ new) = plain F ++ plain new) by (unfold plain; apply map_app).
  assert (HI' : Inv n (add_to_vsubset V new) (plain (F ++ new))).
  { rewrite E. apply add_inv; auto. unfold plain. rewrite map_map, map_id. auto. }
  split; [apply (i_sub HI')|].
  assert (Hsp : forall l, V = vs_sparse n l -> l = plain F -> add_to_vsubset V new = vs_sparse n (plain (F ++ new))).
  { intros l -> ->. unfold add_to_vsubset, vs_sparse. simpl. rewrite E. f_equal.
    - rewrite app_length, Nat.add_comm. unfold plain. now rewrite !map_length.
    - apply (@list_ext_nth _ _ _ (0, tt)).
      + rewrite map_length, seq_length, app_length. unfold plain. rewrite !map_length. lia.
      + rewrite map_length, seq_length. intros i Hi.
        rewrite nth_map_seq by auto. destruct (Nat.ltb_spec i (length (plain F))) as [H|H].
        * now rewrite app_nth1.
        * rewrite app_nth2 by auto. unfold plain. now rewrite (map_nth (fun v => (v, tt)) new 0). }
  destruct Hb as [Hs [[-> El]|[->|(d & Hl & Hd & HV)]]].
  - right; left. apply (Hsp []); auto.
  - right; left. eapply Hsp; eauto.
  - right; right. pose proof (i_dd HI') as Hdd. 
    assert (HV' : V = vs_dense_m n (length (plain F)) d).
    { rewrite <- (i_m HI). destruct HV as [->| ->]; reflexivity. }
    subst V. unfold add_to_vsubset in *. simpl in *. destruct (Hdd eq_refl) as [A B].
    eexists. split; [exact A|]. split; [exact B|]. right. unfold vs_dense_m. f_equal.
    rewrite E, app_length. unfold plain. now rewrite !map_length.
Qed.

Lemma NoDup_skipn' {A} (l : list A) k : NoDup l -> NoDup (skipn k l).
Proof. intros H. rewrite <- (firstn_skipn k l) in H. apply NoDup_app_iff in H. tauto. Qed.
Lemma NoDup_firstn' {A} (l : list A) k : NoDup l -> NoDup (firstn k l).
Proof. intros H. rewrite <- (firstn_skipn k l) in H. apply NoDup_app_iff in H. tauto. Qed.
Lemma In_firstn_skipn {A} i k (l : list A) v : In v (firstn k (skipn i l)) -> In v l.
Proof.
  intros H. rewrite <- (firstn_skipn i l). apply in_or_app. right. rewrite <- (firstn_skipn k (skipn i l)). apply in_or_app. auto.
Qed.

Lemma set_all_in p vs v : In v vs -> set_all p vs v = Some v.
Proof.
  unfold set_all. revert p. induction vs as [|x vs IH] using rev_ind; intros p Hin; [easy|].
  rewrite fold_left_app. simpl. destruct (Nat.eq_dec v x) as [->|Hx]; [apply fset_same|].
  rewrite fset_other by auto. apply IH. apply in_app_or in Hin as [Hin|[->|[]]]; auto. congruence.
Qed.
Lemma set_all_out p vs v : ~ In v vs -> set_all p vs v = p v.
Proof.
  unfold set_all. revert p. induction vs as [|x vs IH] using rev_ind; intros p Hin; [easy|].
  rewrite fold_left_app. simpl. rewrite fset_other; [apply IH|]; intros H; apply Hin, in_or_app; auto. right. left. auto.
Qed.

Lemma shifts_from_nth incs : forall acc i, i <= length incs -> nth_error (shifts_from acc incs) i = Some (acc + list_sum (firstn i incs)).
Proof.
  induction incs as [|x incs IH]; intros acc i Hi; simpl in *.
  - assert (i = 0) by lia. subst. simpl. f_equal. lia.
  - destruct i as [|i]; simpl; [f_equal; lia|]. rewrite IH by lia. f_equal. lia.
Qed.
Lemma shifts_from_len incs : forall acc, length (shifts_from acc incs) = S (length incs).
Proof. induction incs; intros acc; simpl; auto. Qed.
Lemma sum_firstn_le incs i : list_sum (firstn i incs) <= list_sum incs.
Proof. revert i. induction incs as [|x incs IH]; intros [|i]; simpl; try lia. specialize (IH i). lia. Qed.
Lemma sum_firstn_S incs i : i < length incs -> list_sum (firstn (S i) incs) = list_sum (firstn i incs) + nth i incs 0.
Proof.
  revert i. induction incs as [|x incs IH]; intros i Hi; simpl in *; [lia|]. destruct i as [|i]; simpl; [lia|].
  simpl in IH. rewrite IH by lia. lia.
Qed.

Lemma in_cluster_mono outn clu par clu' par' c k v :
  (forall v x, clu v = Some x -> clu' v = Some x) -> (forall v x, par v = Some x -> par' v = Some x) ->
  in_cluster outn clu par c k v -> in_cluster outn clu' par' c k v.
Proof. intros H1 H2 H. induction H; [constructor; auto|econstructor; eauto]. Qed.

Section LDD.
  Variable n : nat.
  Variable outn inn : nat -> list nat.
  Hypothesis G : graph_ok n outn inn.
  Variable m : nat.
  Variable incs perm : list nat.
  Hypothesis Hcov : covers n incs.
  Hypothesis Hperm : Permutation perm (seq 0 n).
  Local Notation "'sh' i" := (list_sum (firstn i incs)) (at level 10, i at level 9).
  Notation shifts := (generate_shifts incs).

  Lemma perm_nd : NoDup perm.
  Proof. eapply Permutation_NoDup; [apply Permutation_sym, Hperm|apply seq_NoDup]. Qed.
  Lemma perm_len : length perm = n.
  Proof. rewrite (Permutation_length Hperm). apply seq_length. Qed.
  Lemma perm_in v : In v perm <-> v < n.
  Proof. split; intros H; [apply (Permutation_in _ Hperm) in H|apply (Permutation_in _ (Permutation_sym Hperm))]; rewrite in_seq in *; lia. Qed.

  (* V: the vertices of earlier frontiers, F: the frontier; d: bound on the depth *)
  Record LInv (d added visited : nat) (par clu : pstate) (U : vset unit) (V F : list nat) : Prop := {
    l_built : built n U (plain F);
    l_nd : NoDup (V ++ F);
    l_vis : visited = length V;
    l_set : forall v, In v (V ++ F) <-> clu v <> None;
    l_iff : forall v, clu v = None <-> par v = None;
    l_all : forall v, In v (firstn added perm) -> clu v <> None;
    l_tree : forall v, clu v <> None -> v < n /\ exists c k, k <= d /\ in_cluster outn clu par c k v }.
  Definition SInv d (s : ldd_state) V F := LInv d (l_added s) (l_visited s) (l_par s) (l_clu s) (l_front s) V F.

  Lemma in_cluster_lt d s V F c k v : SInv d s V F -> in_cluster outn (l_clu s) (l_par s) c k v -> c < n.
  Proof. intros HI H. induction H; auto. apply (l_tree HI). congruence. Qed.

  Lemma centers_inv d s V F : SInv d s V F -> l_added s = sh (l_round s) -> sh (l_round s) < n ->
    exists s1 new, ldd_centers n shifts perm s = Some s1 /\ SInv d s1 V (F ++ new) /\ l_round s1 = l_round s /\
      l_visited s1 = l_visited s /\ l_round s < length incs /\ l_added s1 = Nat.min (sh (S (l_round s))) n /\
      (forall v x, l_clu s v = Some x -> l_clu s1 v = Some x) /\
      new = filter (unset (l_clu s)) (firstn (Nat.min (sh (S (l_round s))) n - sh (l_round s)) (skipn (sh (l_round s)) perm)).
  Proof.
    intros HI Ha Hlt. set (r := l_round s) in *. destruct Hcov as [Hc1 Hc2].
    assert (Hr : r < length incs).
    { destruct (Nat.lt_ge_cases r (length incs)) as [H|H]; auto. rewrite firstn_all2 in Hlt by auto. lia. }
    assert (HS : sh (S r) = sh r + nth r incs 0) by now apply sum_firstn_S.
    assert (H1 : 1 <= nth r incs 0). { rewrite Forall_forall in Hc1. apply Hc1, nth_In, Hr. }
    unfold ldd_centers. fold r. unfold generate_shifts. rewrite !shifts_from_nth by lia. rewrite Nat.add_1_r, !Nat.add_0_l.
    set (e := Nat.min (sh (S r)) n). assert (He : sh r < e /\ e <= n) by (unfold e; lia).
    destruct (Nat.ltb_spec e (sh r)) as [X|_]; [lia|]. rewrite Ha. destruct (Nat.ltb_spec n (sh r + (e - sh r))) as [X|_]; [lia|].
    destruct (Nat.ltb_spec 0 (e - sh r)) as [_|X]; [|lia].
    set (cand := firstn (e - sh r) (skipn (sh r) perm)). set (new := filter (unset (l_clu s)) cand).
    eexists; exists new. split; [reflexivity|]. split; [|split; [reflexivity|split; [reflexivity|split; [exact Hr|split; [simpl; lia|split]]]]].
    2:{ simpl. intros v x Hv. rewrite set_all_out; auto. unfold new. rewrite filter_In. unfold unset. rewrite Hv. intros [_ X]. discriminate. }
    2:{ reflexivity. }
    assert (Hin : forall v, In v new <-> In v cand /\ l_clu s v = None).
    { intros v. unfold new. rewrite filter_In. unfold unset. destruct (l_clu s v); split; intros [A B]; split; auto; discriminate. }
    assert (Hcand : incl cand perm).
    { intros v Hv. apply (In_firstn_skipn (sh r) (e - sh r)) in Hv. auto. }
    assert (Hndc : NoDup cand).
    { unfold cand. apply NoDup_firstn', NoDup_skipn', perm_nd. }
    assert (Hnew : forall v, In v new -> v < n) by (intros v Hv; apply perm_in, Hcand, Hin, Hv).
    assert (Hndn : NoDup (V ++ F ++ new)).
    { rewrite app_assoc. apply NoDup_app_iff. split; [apply (l_nd HI)|]. split; [now apply NoDup_filter|].
      intros v Hv Hv2. apply (l_set HI) in Hv. apply Hin in Hv2. tauto. }
    split; simpl.
    - apply add_built; [apply (l_built HI)| |apply Forall_forall, Hnew].
      apply NoDup_app_iff in Hndn. tauto.
    - exact Hndn.
    - apply (l_vis HI).
    - intros v. rewrite app_assoc, in_app_iff. destruct (in_dec Nat.eq_dec v new) as [H|H].
      + rewrite set_all_in by auto. split; [discriminate|auto].
      + rewrite set_all_out by auto. rewrite <- (l_set HI). tauto.
    - intros v. destruct (in_dec Nat.eq_dec v new) as [H|H].
      + rewrite !set_all_in by auto. split; discriminate.
      + rewrite !set_all_out by auto. apply (l_iff HI).
    - intros v Hv. destruct (in_dec Nat.eq_dec v new) as [H|H].
      + rewrite set_all_in by auto. discriminate.
      + rewrite set_all_out by auto. rewrite <- (firstn_skipn (sh r) (firstn _ perm)) in Hv.
        apply in_app_or in Hv as [Hv|Hv].
        * apply (l_all HI). rewrite Ha. rewrite firstn_firstn in Hv. now rewrite Nat.min_l in Hv by lia.
        * rewrite skipn_firstn_comm in Hv. replace (sh r + (e - sh r) - sh r) with (e - sh r) in Hv by lia.
          fold cand in Hv. intros X. apply H, Hin. auto.
    - intros v Hv. destruct (in_dec Nat.eq_dec v new) as [H|H].
      + split; [apply Hnew, H|]. exists v, 0. split; [lia|]. constructor; now rewrite set_all_in.
      + rewrite set_all_out in Hv by auto. destruct (l_tree HI v Hv) as (A & c & k & Hk & HC). split; auto.
        exists c, k. split; auto. eapply in_cluster_mono; [| |exact HC].
        * intros u x Hu. rewrite set_all_out; auto. rewrite Hin. intros [_ X]. congruence.
        * intros u x Hu. rewrite set_all_out; auto. rewrite Hin. intros [_ X]. apply (l_iff HI) in X. congruence.
  Qed.

  Lemma spread_inv d s V F par' U : SInv d s V F ->
    edgeMap_visit n outn inn m None ldd_flags (l_front s) (l_par s) par' U ->
    exists l, SInv (S d) (ldd_next (ldd_count s) par' U) (V ++ F) l /\
      (forall v x, l_clu s v = Some x -> spread (l_clu s) par' v = Some x) /\
      (forall p v, In p F -> In v (outn p) -> l_clu s v = None -> exists p', In p' F /\ spread (l_clu s) par' v = l_clu s p').
  Proof.
    intros HI Hv. destruct (visit_advanced F G (l_built HI) Hv) as ((l & Hnd & Hl & Hb' & _) & HA & HN).
    assert (Hkeep : forall v x, l_clu s v = Some x -> spread (l_clu s) par' v = Some x) by (intros v x E; unfold spread; now rewrite E).
    assert (Hpk : forall v x, l_par s v = Some x -> par' v = Some x).
    { intros v x E. rewrite HN; auto. intros [X _]. congruence. }
    assert (Hnew : forall v, In v l -> exists p c k, In p F /\ In v (outn p) /\ par' v = Some p /\ p <> v /\ l_clu s v = None /\
              k <= d /\ l_clu s p = Some c /\ spread (l_clu s) par' v = Some c /\ in_cluster outn (l_clu s) (l_par s) c k p).
    { intros v Hv'. apply Hl in Hv'. destruct (HA v Hv') as (p & A & B & C). destruct Hv' as [Hv1 _].
      assert (Hcp : l_clu s p <> None) by (apply (l_set HI), in_or_app; auto).
      assert (Hcv : l_clu s v = None) by now apply (l_iff HI).
      destruct (l_tree HI p Hcp) as (_ & c & k & Hk & HC).
      assert (Ec : l_clu s p = Some c) by (inversion HC; auto).
      exists p, c, k. repeat (split; auto; try congruence). unfold spread. now rewrite Hcv, C. }
    assert (Hout : forall v, ~ In v l -> par' v = l_par s v /\ spread (l_clu s) par' v = l_clu s v).
    { intros v Hn. assert (E : par' v = l_par s v) by (apply HN; now rewrite <- Hl). split; auto.
      unfold spread. destruct (l_clu s v) eqn:Ev; auto. apply (l_iff HI) in Ev. now rewrite E, Ev. }
    exists l. split; [|split; auto].
    - split; simpl.
      + exact Hb'.
      + apply NoDup_app_iff. split; [apply (l_nd HI)|]. split; auto. intros v H1 H2. apply (l_set HI) in H1.
        destruct (Hnew v H2) as (p & c & k & _ & _ & _ & _ & X & _). congruence.
      + rewrite app_length, (l_vis HI). f_equal. apply (built_size F (l_built HI)).
      + intros v. rewrite in_app_iff, (l_set HI). destruct (in_dec Nat.eq_dec v l) as [H|H].
        * destruct (Hnew v H) as (p & c & k & _ & _ & _ & _ & _ & _ & _ & X & _). rewrite X. split; [discriminate|auto].
        * destruct (Hout v H) as [_ ->]. tauto.
      + intros v. destruct (in_dec Nat.eq_dec v l) as [H|H].
        * destruct (Hnew v H) as (p & c & k & _ & _ & X1 & _ & _ & _ & _ & X & _). rewrite X, X1. split; discriminate.
        * destruct (Hout v H) as [-> ->]. apply (l_iff HI).
      + intros v Hv'. apply (l_all HI) in Hv'. destruct (l_clu s v) eqn:Ev; [|congruence]. rewrite (Hkeep _ _ Ev). discriminate.
      + intros v Hv'. destruct (in_dec Nat.eq_dec v l) as [H|H].
        * destruct (Hnew v H) as (p & c & k & X1 & X2 & X3 & X4 & X5 & X6 & X7 & X8 & X9).
          split. { eapply g_out; [apply G| |exact X2]. eapply built_lt; [apply (l_built HI)|exact X1]. }
          exists c, (S k). split; [lia|]. econstructor; eauto. eapply in_cluster_mono; eauto.
        * destruct (Hout v H) as [_ E]. rewrite E in Hv'. destruct (l_tree HI v Hv') as (A & c & k & Hk & HC).
          split; auto. exists c, k. split; [lia|]. eapply in_cluster_mono; eauto.
    - intros p v Hp Hv' Hc. destruct (Hnew v) as (p' & c & k & A & B & C & D & E & E1 & E2 & E3 & _).
      { apply Hl. split; [now apply (l_iff HI)|]. eauto. }
      exists p'. split; auto. congruence.
  Qed.

  Lemma count_inv d s V F : SInv d s V F -> n <= l_visited (ldd_count s) \/ l_added s < n.
  Proof.
    intros HI. destruct (Nat.lt_ge_cases (l_added s) n) as [H|H]; auto. left. simpl. rewrite (l_vis HI).
    rewrite (built_size F (l_built HI)), <- app_length.
    rewrite <- (seq_length n 0). apply NoDup_incl_length; [apply seq_NoDup|]. intros v Hv. apply (l_set HI), (l_all HI).
    rewrite firstn_all2 by (rewrite perm_len; auto). apply perm_in. apply in_seq in Hv. lia.
  Qed.
  Lemma full_inv d s V F : SInv d s V F -> n <= length V + length F -> forall v, v < n -> l_clu s v <> None.
  Proof.
    intros HI H v Hv. apply (l_set HI).
    assert (X : incl (seq 0 n) (V ++ F)).
    { apply NoDup_length_incl; [apply (l_nd HI)|rewrite app_length, seq_length; lia|]. intros u Hu. apply in_seq.
      apply (l_set HI), (l_tree HI) in Hu. lia. }
    apply X, in_seq. lia.
  Qed.

  Lemma loop_inv s : ldd_loop n outn inn m shifts perm s ->
    (exists V F, SInv (l_round s) s V F) /\ l_added s = sh (l_round s) /\ (n = 0 \/ sh (l_round s) < n /\ l_visited s < n) /\ l_round s <= length incs.
  Proof.
    intros H. induction H as [|s s1 par' U H ((V & F & HI) & Ha & Hn & Hr) Hv Ec Hv1 HE].
    - split; [|split; [reflexivity|split; [simpl; lia|simpl; lia]]]. exists [], []. split; simpl; auto; try easy.
      + split; [split; constructor|now left].
      + constructor.
    - destruct Hn as [Hn|[Hn _]]; [lia|].
      destruct (centers_inv HI Ha Hn) as (s1' & new & Ec' & HI1 & Er & _ & Hlt & Ea & _). rewrite Ec in Ec'. injection Ec' as <-.
      destruct (spread_inv HI1 HE) as (l & HI2 & _). simpl. rewrite Er, Nat.add_1_r.
      destruct (count_inv HI1) as [X|X]; [lia|]. rewrite Ea in *.
      split; [eauto|]. split; [lia|]. split; [|lia]. right. split; [lia|exact Hv1].
  Qed.

  Lemma ldd_progress s : ldd_loop n outn inn m shifts perm s ->
    l_round s <= length incs /\ (n <= l_visited s \/
     exists s1, ldd_centers n shifts perm s = Some s1 /\ (n <= l_visited (ldd_count s1) \/
        exists par' U, edgeMap_visit n outn inn m None ldd_flags (l_front s1) (l_par s1) par' U)).
  Proof.
    intros H. destruct (loop_inv H) as ((V & F & HI) & Ha & Hn & Hr). split; auto.
    destruct Hn as [Hn|[Hn _]]; [left; lia|]. right.
    destruct (centers_inv HI Ha Hn) as (s1 & new & Ec & HI1 & _). exists s1. split; auto. right.
    eapply visit_progress; [apply G|apply (l_built HI1)].
  Qed.

  Lemma ldd_ok clu par : ldd_returns n outn inn m shifts perm clu par ->
    forall v, v < n -> exists c k, c < n /\ S k <= length incs /\ in_cluster outn clu par c k v.
  Proof.
    intros H v Hv. inversion H as [s Hs Hge|s s1 Hs Hlt Ec Hge]; subst.
    - destruct (loop_inv Hs) as (_ & _ & [X|X] & _); lia.
    - destruct (loop_inv Hs) as ((V & F & HI) & Ha & [X|[X _]] & Hr); [lia|].
      destruct (centers_inv HI Ha X) as (s1' & new & Ec' & HI1 & Er & _ & Hr' & _). rewrite Ec in Ec'. injection Ec' as <-.
      assert (Hall : l_clu s1 v <> None).
      { apply (full_inv HI1); auto. simpl in Hge. now rewrite (l_vis HI1), (built_size _ (l_built HI1)) in Hge. }
      destruct (l_tree HI1 v Hall) as (_ & c & k & Hk & HC). exists c, k. split; [|split; [lia|auto]].
      eapply in_cluster_lt; eauto.
  Qed.

  (* with exactly one candidate in the first round, its neighbours join it *)
  Lemma loop_first s : ldd_loop n outn inn m shifts perm s -> nth 0 incs 0 = 1 -> 2 <= n -> l_round s <> 0 ->
    forall p v, nth_error perm 0 = Some p -> In v (outn p) -> l_clu s v = Some p.
  Proof.
    intros H H1 Hn. induction H as [|s s1 par' U H IH Hv Ec Hv1 HE]; intros Hr p v Hp Hin; [now simpl in Hr|].
    destruct (loop_inv H) as ((V & F & HI) & Ha & [X|[X _]] & _); [lia|].
    destruct (centers_inv HI Ha X) as (s1' & new & Ec' & HI1 & Er & _ & Hlt & Ea & Hk & En). rewrite Ec in Ec'. injection Ec' as <-.
    destruct (spread_inv HI1 HE) as (l & HI2 & Hk2 & Hsp). simpl.
    destruct (Nat.eq_dec (l_round s) 0) as [E0|E0]; [|apply Hk2, Hk, IH; auto].
    assert (Es : s = ldd_init n). { inversion H as [|? ? ? ? ? ? ? ? ? E]; subst; auto. simpl in E0. lia. }
    subst s. simpl in HI. assert (F = [] /\ V = []) as [-> ->].
    { split; apply incl_l_nil; intros u Hu; exfalso; assert (Y : In u (V ++ F)) by (apply in_or_app; auto); apply (l_set HI) in Y; now apply Y. }
    assert (En' : new = [p]).
    { rewrite En. destruct incs as [|i0 incs']; [simpl in Hlt; lia|]. simpl in H1. subst i0.
      replace (Nat.min (list_sum (firstn (S (l_round (ldd_init n))) (1 :: incs'))) n) with 1 by (cbn [l_round ldd_init firstn]; change (list_sum [1]) with 1; lia).
      destruct perm as [|p' perm']; [discriminate|]. injection Hp as ->. reflexivity. }
    clear En. subst new. simpl in HI1.
    assert (Hcp : l_clu s1 p = Some p).
    { assert (Y : l_clu s1 p <> None) by (apply (proj1 (l_set HI1 p)); simpl; auto). revert Y.
      assert (Hc : ldd_centers n shifts perm (ldd_init n) = Some s1) by auto. unfold ldd_centers in Hc.
      destruct (nth_error shifts (l_round (ldd_init n))); [|discriminate].
      destruct (nth_error shifts (l_round (ldd_init n) + 1)); [|discriminate].
      destruct (Nat.ltb _ _); [discriminate|]. destruct (Nat.ltb _ _); [discriminate|]. injection Hc as <-. intros Y. simpl in *.
      destruct (in_dec Nat.eq_dec p (filter (unset (fun _ => None)) (firstn (Nat.min n1 n - n0) perm))) as [Z|Z].
      - now apply set_all_in.
      - rewrite set_all_out in Y by auto. congruence. }
    destruct (l_clu s1 v) as [x|] eqn:Ev.
    - rewrite (Hk2 _ _ Ev). assert (Y : In v [p]) by (apply (l_set HI1); congruence). destruct Y as [<-|[]]. congruence.
    - destruct (Hsp p v) as (p' & [<-|[]] & ->); auto. now left.
  Qed.
  Lemma ldd_first clu par : ldd_returns n outn inn m shifts perm clu par -> nth 0 incs 0 = 1 -> 2 <= n ->
    forall p v, nth_error perm 0 = Some p -> In v (outn p) -> clu v = Some p.
  Proof.
    intros H H1 Hn p u Hp Hu. inversion H as [s Hs Hge|s s1 Hs Hlt Ec Hge]; subst.
    - destruct (loop_inv Hs) as (_ & _ & [X|X] & _); lia.
    - destruct (loop_inv Hs) as ((V & F & HI) & Ha & [X|[X _]] & Hr); [lia|].
      destruct (centers_inv HI Ha X) as (s1' & new & Ec' & HI1 & Er & Ev & Hr' & Ea & Hk & En). rewrite Ec in Ec'. injection Ec' as <-.
      apply Hk. destruct (Nat.eq_dec (l_round s) 0) as [E0|E0]; [|eapply loop_first; eauto].
      exfalso. assert (Es : s = ldd_init n). { inversion Hs as [|? ? ? ? ? ? ? ? ? E]; subst; auto. simpl in E0. lia. }
      subst s. simpl in HI.  assert (F = [] /\ V = []) as [-> ->].
      { split; apply incl_l_nil; intros y Hy; exfalso; assert (Y : In y (V ++ F)) by (apply in_or_app; auto); apply (l_set HI) in Y; now apply Y. }
      simpl in Hge. rewrite Ev in Hge. simpl in Hge. rewrite (built_size _ (l_built HI1)) in Hge. simpl in Hge.
      assert (length new <= 1); [|lia]. rewrite En. etransitivity; [apply filter_len_le|]. rewrite firstn_length. cbn [l_round ldd_init].
      destruct incs as [|i0 incs']; [simpl in Hr'; lia|]. simpl in H1. subst i0. change (list_sum (firstn 1 (1 :: incs'))) with 1. lia.
  Qed.
  Lemma ldd_shrinks clu par : ldd_returns n outn inn m shifts perm clu par -> nth 0 incs 0 = 1 -> 2 <= n ->
    (forall v, v < n -> exists u, In u (outn v) /\ u <> v) -> exists v c, v < n /\ clu v = Some c /\ c <> v.
  Proof.
    intros H H1 Hn Hne. assert (Hp : exists p, nth_error perm 0 = Some p).
    { pose proof perm_len. destruct perm; [simpl in *; lia|]. eexists; reflexivity. }
    destruct Hp as [p Hp]. assert (Hpn : p < n) by (apply perm_in; eapply nth_error_In; eauto).
    destruct (Hne p Hpn) as (u & Hu & Hup). exists u, p. split; [eapply g_out; eauto|]. split; [|auto]. eapply ldd_first; eauto.
  Qed.

  Lemma ldd_total_from s : ldd_loop n outn inn m shifts perm s -> exists clu par, ldd_returns n outn inn m shifts perm clu par.
  Proof.
    remember (length incs - l_round s) as q eqn:Eq. revert s Eq.
    induction q as [q IH] using lt_wf_ind. intros s Eq H.
    destruct (ldd_progress H) as [Hr [Hd|(s1 & Ec & [Hd|(par' & U & HE)])]].
    - do 2 eexists. eapply ldd_done; eauto.
    - destruct (Nat.lt_ge_cases (l_visited s) n) as [Hv|Hv]; do 2 eexists; [eapply ldd_break; eauto|eapply ldd_done; eauto].
    - destruct (Nat.lt_ge_cases (l_visited s) n) as [Hv|Hv]; [|do 2 eexists; eapply ldd_done; eauto].
      destruct (Nat.lt_ge_cases (l_visited (ldd_count s1)) n) as [Hv1|Hv1]; [|do 2 eexists; eapply ldd_break; eauto].
      assert (H2 : ldd_loop n outn inn m shifts perm (ldd_next (ldd_count s1) par' U)) by (econstructor; eauto).
      destruct (loop_inv H) as ((V & F & HI) & Ha & [X|[X _]] & _); [lia|].
      destruct (centers_inv HI Ha X) as (s1' & new & Ec' & _ & Er & _ & Hlt & _). rewrite Ec in Ec'. injection Ec' as <-.
      apply (IH (length incs - l_round (ldd_next (ldd_count s1) par' U))) in H2; auto. simpl. lia.
  Qed.
End LDD.
