(* C43: Kruskal's minimum spanning forest.  C52: edges(). *)
From Coq Require Import ZArith Permutation Sorted.
From Verif Require Import Base ListUtil GBModel UFSpec UFModel FRSpec FRProofs KRModel KRProofs.

(* edges(): the edges by source and in list order, whatever the order of the stores *)
Theorem C52_edges : forall W (G : csr W), inhabited W ->
  (exists es, edges_returns G es) /\ forall es, edges_returns G es -> es = graph_edges G.
Proof. intros W G [w]. split; [apply edges_run; exact (inhabits (0, 0, w))|apply edges_ok]. Qed.

(* Kruskal: on a graph with at least one edge, if no forest of the graph has a weight that the weight
   type cannot hold, a minimum spanning forest is returned, whatever order equal weights are sorted in *)
Theorem C43_kruskal : forall fits mx (G : csr Z),
  (forall e, In e (graph_edges G) -> dst e < gn G) -> graph_edges G <> [] ->
  (forall T, incl T (graph_edges G) -> forest T -> fits (weight T) = true) ->
  (exists o, kruskal_returns fits mx (gn G) G o) /\
  (forall o, kruskal_returns fits mx (gn G) G o -> exists T, o = Some T /\ minimum_spanning_forest (graph_edges G) T).
Proof.
  intros fits mx G Hv Hne Hfit. set (E := graph_edges G) in *.
  assert (HE : forall e, In e E -> src e < gn G /\ dst e < gn G).
  { intros e He. split; auto. apply in_flat_map in He as (u & Hu & He). apply in_map_iff in He as (x & <- & _). apply in_seq in Hu. unfold src. simpl. lia. }
  split.
  - destruct (@edges_run Z G (inhabits (0, 0, 0%Z))) as (es & Hes). pose proof (edges_ok Hes) as Ee. fold E in Ee.
    assert (X : exists sorted, Permutation sorted E /\ StronglySorted (fun e f => (wgh e <= wgh f)%Z) sorted).
    { clear. induction E as [|x l (o & Hp & Hs)]; [exists []; split; constructor|].
      assert (Y : forall o, StronglySorted (fun e f : edge Z => (wgh e <= wgh f)%Z) o -> exists o', Permutation o' (x :: o) /\ StronglySorted (fun e f => (wgh e <= wgh f)%Z) o').
      { clear. induction 1 as [|y o Hs IH Hf]; [exists [x]; split; auto; repeat constructor|]. destruct (Z.le_gt_cases (wgh x) (wgh y)) as [H|H].
        - exists (x :: y :: o). split; auto. constructor; [constructor; auto|]. constructor; auto. eapply Forall_impl; [|exact Hf]. simpl. intros. lia.
        - destruct IH as (o' & Hp & Hs'). exists (y :: o'). split; [rewrite Hp; constructor|]. constructor; auto. rewrite Forall_forall in *. intros z Hz.
          apply (Permutation_in _ Hp) in Hz as [<-|Hz]; [lia|auto]. }
      destruct (Y o Hs) as (o' & Hp' & Hs'). exists o'. split; auto. rewrite Hp'. now constructor. }
    destruct X as (sorted & Hp & Hs). destruct (@loop_runs fits mx (gn G) E HE sorted [] _ [] 0%Z ki_init Hp Hs) as (o & Ho).
    exists o, es. split; auto. rewrite Ee. destruct E; [congruence|]. eauto.
  - intros o (es & Hes & H). pose proof (edges_ok Hes) as Ee. fold E in Ee. rewrite Ee in H. destruct E as [|e0 E0] eqn:EE; [congruence|]. rewrite <- EE in *.
    destruct H as (sorted & Hp & Hs & Hl). destruct (loop_ok HE Hfit Hl ki_init Hp Hs) as (T & m' & wt' & -> & K). exists T. split; auto. simpl in K.
    assert (Hin : forall e, In e sorted <-> In e E) by (intros e; split; apply Permutation_in; auto using Permutation_sym).
    apply bottleneck_minimum.
    + split; [|split; [apply K|]]; [intros e He; now apply Hin, (ki_incl K)|]. intros u v Huv. apply (ki_conn K). eapply conn_incl; [|exact Huv].
      intros x Hx. apply in_map_iff in Hx as (f & <- & Hf). apply in_map_iff. exists f. split; auto. now apply Hin.
    + intros e He. apply (ki_span K). now apply Hin.
Qed.

(* 32-bit weights: enough that n times the largest absolute weight is below 2^31 *)
Definition int32 (z : Z) : bool := ((- 2 ^ 31 <=? z) && (z <? 2 ^ 31))%Z.
Theorem C43_int32 : forall mx (G : csr Z) M, (forall e, In e (graph_edges G) -> dst e < gn G /\ (Z.abs (wgh e) <= M)%Z) -> graph_edges G <> [] ->
  (Z.of_nat (gn G) * M < 2 ^ 31)%Z ->
  (exists o, kruskal_returns int32 mx (gn G) G o) /\
  (forall o, kruskal_returns int32 mx (gn G) G o -> exists T, o = Some T /\ minimum_spanning_forest (graph_edges G) T).
Proof.
  intros mx G M H Hne HM. apply C43_kruskal; auto; [intros e He; now apply H|]. intros T Hi Hf.
  assert (HE : forall e, In e (graph_edges G) -> src e < gn G /\ dst e < gn G).
  { intros e He. split; [|now apply H]. apply in_flat_map in He as (u & Hu & He). apply in_map_iff in He as (x & <- & _). apply in_seq in Hu. unfold src. simpl. lia. }
  assert (HT : (Z.abs (weight T) <= Z.of_nat (length T) * M)%Z).
  { clear Hf. induction T as [|e T IH]; [reflexivity|]. unfold weight in *. cbn [map fold_right length].
    assert (Z.abs (wgh e) <= M)%Z by (apply H, Hi; now left). assert (X : incl T (graph_edges G)) by (intros x Hx; apply Hi; now right). specialize (IH X). lia. }
  assert (Hl : length T <= gn G).
  { destruct T as [|e T]; [simpl; lia|]. apply Nat.lt_le_incl. eapply forest_small; eauto; congruence. }
  destruct (graph_edges G) as [|e0 E0]; [congruence|]. assert (0 <= M)%Z by (pose proof (proj2 (H e0 (or_introl eq_refl))); lia).
  unfold int32. apply andb_true_intro. rewrite Z.leb_le, Z.ltb_lt. nia.
Qed.

(* without edges the first weight is read from an empty array *)
Theorem C43_no_edges_refuted : exists (G : csr Z), gn G = 3 /\ forall fits mx o, kruskal_returns fits mx (gn G) G o -> o = None.
Proof.
  exists {| gn := 3; gm := 0; goff := [0; 0; 0]; gdeg := [0; 0; 0]; gngh := [] |}. split; auto. intros fits mx o (es & Hes & H).
  apply edges_ok in Hes. unfold graph_edges in Hes. simpl in Hes. now subst.
Qed.
(* and the running total can overflow although every weight is a 32-bit number *)
Definition big : Z := (2 ^ 30)%Z.
Theorem C43_overflow_refuted : exists (G : csr Z), graph_edges G <> [] /\ (forall e, In e (graph_edges G) -> dst e < gn G /\ int32 (wgh e) = true) /\
  forall mx, kruskal_returns int32 mx (gn G) G None.
Proof.
  exists {| gn := 3; gm := 4; goff := [0; 1; 3]; gdeg := [1; 2; 1]; gngh := [(1, big); (0, big); (2, big); (1, big)] |}.
  set (G := {| gn := 3; gm := 4; goff := [0; 1; 3]; gdeg := [1; 2; 1]; gngh := [(1, big); (0, big); (2, big); (1, big)] |}).
  assert (EG : graph_edges G = [(0, 1, big); (1, 0, big); (1, 2, big); (2, 1, big)]) by reflexivity.
  split; [rewrite EG; discriminate|]. split; [rewrite EG; intros e [<-|[<-|[<-|[<-|[]]]]]; (split; [unfold dst; simpl; lia|vm_compute; reflexivity])|].
  intros mx. destruct (@edges_run Z G (inhabits (0, 0, 0%Z))) as (es & Hes). pose proof (edges_ok Hes) as Ee. exists es. split; auto. rewrite Ee, EG.
  eexists. split; [reflexivity|]. split; [repeat constructor; apply Z.le_refl|].
  set (m0 := {| par := fun x => x; aux := fun _ => None |}). assert (D0 : UFRoots.down (par m0)) by (intros x; auto).
  assert (Hr : forall x, UFRoots.root (par m0) x = x) by (intros x; now apply UFRoots.root_self).
  destruct (@find_solo 3 0 m0 D0 ltac:(lia)) as (m1 & S1 & K1). destruct (@find_solo 3 1 m1 (proj1 K1) ltac:(lia)) as (m2 & S2 & K2). pose proof (keeps_trans K1 K2) as K.
  rewrite (proj2 K1), Hr in S2. rewrite Hr in S1.
  destruct (@unite_solo 3 mx 0 1 m2 (proj1 K) ltac:(lia) ltac:(lia)) as (r & m3 & S3 & D3 & R3); [rewrite !(proj2 K), !Hr; lia|].
  eapply kr_join; [exact S1|exact S2|lia|exact S3|vm_compute; reflexivity|simpl; lia|].
  assert (R3' : forall x, UFRoots.root (par m3) x = if x =? 1 then 0 else x) by (intros x; rewrite R3, !(proj2 K), !Hr; reflexivity).
  destruct (@find_solo 3 1 m3 D3 ltac:(lia)) as (m4 & S4 & K4). destruct (@find_solo 3 0 m4 (proj1 K4) ltac:(lia)) as (m5 & S5 & K5). pose proof (keeps_trans K4 K5) as K6.
  rewrite (proj2 K4), R3' in S5. rewrite R3' in S4. eapply kr_same; [exact S4|exact S5|].
  destruct (@find_solo 3 1 m5 (proj1 K6) ltac:(lia)) as (m6 & S6 & K7). destruct (@find_solo 3 2 m6 (proj1 K7) ltac:(lia)) as (m7 & S7 & K8). pose proof (keeps_trans K7 K8) as K9.
  destruct (@unite_solo 3 mx 1 2 m7 (proj1 K9) ltac:(lia) ltac:(lia)) as (r2 & m8 & S8 & D8 & R8); [rewrite !(proj2 K9), !(proj2 K6), !R3'; simpl; lia|].
  rewrite (proj2 K7), (proj2 K6), R3' in S7. rewrite (proj2 K6), R3' in S6.
  eapply kr_bad; [exact S6|exact S7|simpl; lia|exact S8|left; vm_compute; reflexivity].
Qed.

(* A weighted square with a diagonal and a separate vertex, negative weights and ties. *)
Example C43_example : exists (G : csr Z), length (graph_edges G) = 10 /\ (forall e, In e (graph_edges G) -> dst e < gn G /\ (Z.abs (wgh e) <= 7)%Z) /\
  (Z.of_nat (gn G) * 7 < 2 ^ 31)%Z.
Proof.
  exists {| gn := 5; gm := 10; goff := [0; 3; 5; 8; 10]; gdeg := [3; 2; 3; 2; 0];
           gngh := combine [1; 2; 3; 0; 2; 0; 1; 3; 0; 2] [4; -7; 4; 4; 4; -7; 4; 2; 4; 2]%Z |}.
  split; [reflexivity|]. split; [|reflexivity]. unfold graph_edges. simpl. intros e He. repeat (destruct He as [<-|He]; [unfold dst, wgh; simpl; lia|]). destruct He.
Qed.
Print Assumptions C43_kruskal.
Print Assumptions C43_int32.
Print Assumptions C43_no_edges_refuted.
Print Assumptions C43_overflow_refuted.
Print Assumptions C52_edges.
