(* C53: the low-diameter decomposition. *)
From Coq Require Import Permutation.
From Verif Require Import Base ListUtil VSModel VSSpec EMModel EMSpec FAModel LDModel LDSpec LDProofs.

(* every vertex is in a cluster, named after one of its members, the centre; the parents form a
   tree of graph edges inside the cluster that leads to the centre in fewer steps than there are rounds *)
Theorem C53_clusters : forall n outn inn m incs perm clu par,
  graph_ok n outn inn -> covers n incs -> Permutation perm (seq 0 n) ->
  ldd_returns n outn inn m (generate_shifts incs) perm clu par ->
  forall v, v < n -> exists c k, c < n /\ k < length incs /\ in_cluster outn clu par c k v.
Proof. intros n outn inn m incs perm clu par G Hc Hp H v Hv. exact (ldd_ok G Hc Hp H Hv). Qed.
Print Assumptions C53_clusters.

(* the decomposition ends: no round reads past the shifts or the permutation, every call of
   edgeMap can be carried out, and there are at most as many rounds as increments *)
Theorem C53_finishes : forall n outn inn m incs perm s,
  graph_ok n outn inn -> covers n incs -> Permutation perm (seq 0 n) ->
  ldd_loop n outn inn m (generate_shifts incs) perm s ->
  l_round s <= length incs /\
  (n <= l_visited s \/
   exists s1, ldd_centers n (generate_shifts incs) perm s = Some s1 /\
     (n <= l_visited (ldd_count s1) \/
      exists par' U, edgeMap_visit n outn inn m None ldd_flags (l_front s1) (l_par s1) par' U)).
Proof. intros n outn inn m incs perm s G Hc Hp H. exact (ldd_progress G Hc Hp H). Qed.
Print Assumptions C53_finishes.
Theorem C53_returns : forall n outn inn m incs perm,
  graph_ok n outn inn -> covers n incs -> Permutation perm (seq 0 n) ->
  exists clu par, ldd_returns n outn inn m (generate_shifts incs) perm clu par.
Proof. intros n outn inn m incs perm G Hc Hp. eapply ldd_total_from; eauto. constructor. Qed.
Print Assumptions C53_returns.

(* if the first round takes one vertex (floor(exp(0)) = 1), all its neighbours join it *)
Theorem C53_first_round : forall n outn inn m incs perm clu par,
  graph_ok n outn inn -> covers n incs -> Permutation perm (seq 0 n) -> nth 0 incs 0 = 1 -> 2 <= n ->
  ldd_returns n outn inn m (generate_shifts incs) perm clu par ->
  forall p v, nth_error perm 0 = Some p -> In v (outn p) -> clu v = Some p.
Proof. intros n outn inn m incs perm clu par G Hc Hp H1 Hn H. exact (ldd_first G Hc Hp H H1 Hn). Qed.
Print Assumptions C53_first_round.

(* a path on four vertices and an isolated vertex *)
Example C53_example :
  let outn := fun v => nth v [[1]; [0; 2]; [1; 3]; [2]; []] [] in
  let incs := [1; 1; 1; 2] in let perm := [1; 4; 0; 2; 3] in
  graph_ok 5 outn outn /\ covers 5 incs /\ Permutation perm (seq 0 5) /\
  exists clu par, ldd_returns 5 outn outn 6 (generate_shifts incs) perm clu par /\ clu 0 = Some 1 /\ clu 2 = Some 1 /\ clu 4 = Some 4.
Proof.
  cbv zeta.
  set (outn := fun v => nth v [[1]; [0; 2]; [1; 3]; [2]; []] []). set (incs := [1; 1; 1; 2]). set (perm := [1; 4; 0; 2; 3]).
  assert (G : graph_ok 5 outn outn).
  { split.
    - intros s d Hs Hd. do 5 (destruct s as [|s]; [do 5 (destruct d as [|d]; [unfold outn; simpl; intuition lia|]); lia|]). lia.
    - intros s d Hs Hd. do 5 (destruct s as [|s]; [unfold outn in Hd; simpl in Hd; intuition lia|]). lia.
    - intros d s Hs Hd. do 5 (destruct s as [|s]; [unfold outn in Hd; simpl in Hd; intuition lia|]). lia. }
  assert (Hc : covers 5 incs) by (split; [repeat constructor|vm_compute; lia]).
  assert (Hp : Permutation perm (seq 0 5)).
  { apply NoDup_Permutation; [repeat constructor; simpl; lia|apply seq_NoDup|]. intros x. simpl. lia. }
  split; auto. split; auto. split; auto.
  destruct (C53_returns 6 G Hc Hp) as (clu & par & H). exists clu, par. split; auto.
  pose proof (C53_first_round G Hc Hp eq_refl ltac:(lia) H) as Hf.
  split; [|split]; try (apply (Hf 1); [reflexivity|unfold outn; simpl; auto]).
  destruct (C53_clusters G Hc Hp H (v := 4)) as (c & k & _ & _ & HC); [lia|].
  assert (Hno : forall p, ~ In 4 (outn p)).
  { intros p X. do 5 (destruct p as [|p]; [unfold outn in X; simpl in X; intuition lia|]). unfold outn in X. simpl in X. destruct p; auto. }
  inversion HC; subst; auto. exfalso. eapply Hno; eauto.
Qed.
