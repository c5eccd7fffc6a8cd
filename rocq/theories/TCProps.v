(* C48: triangle counting. *)
From Coq Require Import Permutation Sorted.
From Verif Require Import Base ListUtil GBModel ISSpec TCModel TCSpec TCProofs.

(* Whatever the schedule: each triangle is passed to f exactly once (in some order of its vertices),
   nothing else is, and the number returned is the number of triangles.  The ranks can be any array
   that has no value twice. *)
Theorem C48_triangles : forall thresh base bsz (G : csr unit) rank count made, 2 <= base -> simple G ->
  (forall u v, u < gn G -> v < gn G -> nth u rank 0 = nth v rank 0 -> u = v) ->
  triangles_with thresh base bsz G rank count made ->
  NoDup (map sort3 made) /\ (forall t, In t (map sort3 made) <-> triangle G t) /\
  (forall ts, NoDup ts -> (forall t, In t ts <-> triangle G t) -> count = length ts).
Proof.
  intros thresh base bsz G rank count made Hb HG Hr H. destruct (triangles_ok Hb HG Hr H) as (A & B & C). split; auto. split; auto.
  intros ts Hn Ht. rewrite A, <- (map_length sort3). apply Permutation_length. apply NoDup_Permutation; auto. intros t. now rewrite C, Ht.
Qed.
(* The same for the order by degree, whichever way ties are broken: its ranks are 0 .. n-1. *)
Theorem C48_by_degree : forall thresh base bsz (G : csr unit) count made, 2 <= base -> simple G ->
  by_degree thresh base bsz G count made ->
  NoDup (map sort3 made) /\ (forall t, In t (map sort3 made) <-> triangle G t) /\
  (forall ts, NoDup ts -> (forall t, In t ts <-> triangle G t) -> count = length ts).
Proof.
  intros thresh base bsz G count made Hb HG (o & r & Hp & _ & Hr & H). eapply C48_triangles; eauto. now apply (@rank_nodes_injective o).
Qed.
(* Both always finish. *)
Theorem C48_finishes : forall thresh base bsz (G : csr unit), 2 <= base -> simple G ->
  (forall rank, exists count made, triangles_with thresh base bsz G rank count made) /\
  exists count made, by_degree thresh base bsz G count made.
Proof.
  intros thresh base bsz G Hb HG. split; [intros; now apply triangles_run|].
  destruct (sorted_exists (fun v => nth v (gdeg G) 0) (gn G)) as (o & Hp & Hs). destruct (@rank_nodes_ok o _ Hp) as [(r & Hr) _].
  destruct (@triangles_run thresh base bsz Hb G HG r) as (count & made & H). exists count, made, o, r. auto.
Qed.
(* Ranks that are not distinct lose triangles: with equal ranks none is reported. *)
Theorem C48_ties_refuted : exists (G : csr unit) rank, simple G /\ triangle G (0, 1, 2) /\
  forall thresh base bsz count made, 2 <= base -> triangles_with thresh base bsz G rank count made -> count = 0 /\ made = [].
Proof.
  exists {| gn := 3; gm := 6; goff := [0; 2; 4]; gdeg := [2; 2; 2]; gngh := map (fun v => (v, tt)) [1; 2; 0; 2; 0; 1] |}, [5; 5; 5].
  set (G := {| gn := 3; gm := 6; goff := [0; 2; 4]; gdeg := [2; 2; 2]; gngh := map (fun v => (v, tt)) [1; 2; 0; 2; 0; 1] |}).
  assert (HG : simple G).
  { intros u Hu. destruct u as [|[|[|u]]]; [| | |simpl in Hu; lia]; (split; [unfold increasing, neighbors; simpl; repeat constructor|]); unfold adj, neighbors; simpl;
      intros v [<-|[<-|[]]]; simpl; auto. }
  split; auto. split; [unfold triangle, adj, neighbors; simpl; repeat split; auto; lia|]. intros thresh base bsz count made Hb2 H.
  destruct H as (sh & junk & DG & Hs & E & Hb). destruct (@dg_spec G HG [5; 5; 5] _ _ _ Hs E) as [Hn Hd].
  assert (Hd' : forall v, v < gn DG -> map fst (neighbors DG v) = []).
  { intros v Hv. rewrite Hn in Hv. destruct (map fst (neighbors DG v)) as [|u l] eqn:El; auto. exfalso. assert (X : In u (map fst (neighbors DG v))) by (rewrite El; now left).
    apply Hd in X as [X1 X2]; auto. assert (u < gn G) by now apply HG in X1. simpl in *. destruct u as [|[|[|u]]], v as [|[|[|v]]]; simpl in X2; lia. }
  destruct (@balanced_ok thresh base bsz Hb2 (gn DG) (fun v => map fst (neighbors DG v))) with (3 := Hb) as [Hc Hp].
  - intros v Hv. rewrite Hd' by auto. constructor.
  - intros u v Hu Hv. rewrite Hd' in Hv by auto. destruct Hv.
  - assert (Ea : all_reports (gn DG) (fun v => map fst (neighbors DG v)) = []).
    { unfold all_reports. apply flat_none. intros i Hi. apply in_seq in Hi. unfold vreports, reports. rewrite Hd' by lia. reflexivity. }
    rewrite Ea in *. split; auto. now apply Permutation_nil, Permutation_sym.
Qed.

(* Two triangles sharing an edge, a pendant vertex and a self loop. *)
Example C48_example : exists (G : csr unit), simple G /\ triangle G (0, 1, 2) /\ triangle G (1, 2, 3) /\ adj G 4 4 /\
  exists count made, by_degree 2000 2000 3 G count made /\ count = 2.
Proof.
  set (ng := map (fun v => (v, tt)) [1; 2; 0; 2; 3; 0; 1; 3; 1; 2; 4; 3; 4]).
  set (G := {| gn := 5; gm := 13; goff := [0; 2; 5; 8; 11]; gdeg := [2; 3; 3; 3; 2]; gngh := ng |}). exists G.
  assert (HG : simple G).
  { intros u Hu. destruct u as [|[|[|[|[|u]]]]]; [| | | | |simpl in Hu; lia]; (split; [unfold increasing, neighbors; simpl; repeat constructor|]); unfold adj, neighbors; simpl;
      intros v Hv; repeat (destruct Hv as [<-|Hv]; [simpl; auto 10|]); destruct Hv. }
  assert (T1 : triangle G (0, 1, 2)) by (unfold triangle, adj, neighbors; simpl; repeat split; auto; lia).
  assert (T2 : triangle G (1, 2, 3)) by (unfold triangle, adj, neighbors; simpl; repeat split; auto; lia).
  split; auto. split; auto. split; auto. split; [unfold adj, neighbors; simpl; auto|].
  assert (Hb : 2 <= 2000) by (apply Nat.leb_le; vm_compute; reflexivity).
  destruct (@C48_finishes 2000 2000 3 G Hb HG) as [_ (count & made & H)]. exists count, made. split; auto.
  destruct (C48_by_degree Hb HG H) as (_ & _ & X). apply (X [(0, 1, 2); (1, 2, 3)]).
  - repeat constructor; simpl; intuition congruence.
  - intros [[a b] c]. split; [intros [E|[E|[]]]; injection E as <- <- <-; auto|]. intros (H1 & H2 & H3 & H4 & H5). simpl in H2. unfold adj, neighbors in *.
    destruct a as [|[|[|[|[|a]]]]]; simpl in H3, H5; try lia; repeat (destruct H3 as [<-|H3]; [try lia; simpl in H4, H5; repeat (destruct H4 as [<-|H4]; [try lia; simpl; auto; tauto|]); tauto|]); tauto.
Qed.
Print Assumptions C48_triangles.
Print Assumptions C48_by_degree.
Print Assumptions C48_finishes.
Print Assumptions C48_ties_refuted.
