(* C64: Boruvka's minimum spanning forest. *)
From Coq Require Import ZArith Permutation.
From Verif Require Import Base ListUtil GBModel SFModel SFSpec UFSpec FRSpec BOModel BOProofs BOFinal.
Local Open Scope nat_scope.

Definition int32_max : Z := 2147483647.
(* For every symmetric graph without self-loops whose weights are at most int32_max, every choice of
   the random split weights and hashes and every schedule: a minimum spanning forest is returned. *)
Theorem C64_boruvka : forall thr fb largemem (G : csr Z), 0 < fb -> regions_ok G -> gm G = total_degree G ->
  (forall u v w, In (u, v, w) (graph_edges G) -> v < gn G /\ u <> v /\ (w <= int32_max)%Z /\ In (v, u, w) (graph_edges G)) ->
  (exists T, boruvka_returns int32_max thr fb largemem G T) /\
  (forall T, boruvka_returns int32_max thr fb largemem G T -> minimum_spanning_forest (graph_edges G) T).
Proof.
  intros thr fb largemem G Hfb HR Hm HE.
  assert (HE' : forall e, In e (graph_edges G) -> dst e < gn G /\ src e <> dst e /\ (wgh e <= int32_max)%Z /\ In (flip e) (graph_edges G)) by (intros [[u v] w] He; apply (HE _ _ _ He)).
  split; [now apply runs|]. intros T. now apply returns_msf.
Qed.
(* The array of selected edges starts from int32_max whatever the weight type: if all the weights are
   above it (weights of a wider type), nothing is selected, and still all edges are removed. *)
Theorem C64_heavy : forall thr fb largemem (G : csr Z), 0 < fb -> regions_ok G -> (forall u v w, In (u, v, w) (graph_edges G) -> (int32_max < w)%Z) ->
  forall T, boruvka_returns int32_max thr fb largemem G T -> T = [].
Proof. intros thr fb largemem G Hfb HR Hw. apply heavy_returns; auto. intros [[u v] w]. apply Hw. Qed.
Definition heavy_graph : csr Z := {| gn := 2; gm := 2; goff := [0; 1]; gdeg := [1; 1]; gngh := [(1, 2147483648%Z); (0, 2147483648%Z)] |}.
Theorem C64_heavy_refuted : forall thr fb, 0 < fb -> regions_ok heavy_graph /\ gm heavy_graph = total_degree heavy_graph /\
  graph_edges heavy_graph = [(0, 1, 2147483648%Z); (1, 0, 2147483648%Z)] /\
  (exists T, boruvka_returns int32_max thr fb false heavy_graph T) /\
  (forall T, boruvka_returns int32_max thr fb false heavy_graph T -> ~ spanning_forest (graph_edges heavy_graph) T).
Proof.
  intros thr fb Hfb. assert (HR : regions_ok heavy_graph).
  { split; [reflexivity|]. split; [reflexivity|]. split; [intros [|[|v]] Hv; simpl in *; lia|]. intros [|[|u]] [|[|v]]; simpl; lia. }
  split; auto. split; [reflexivity|]. split; [reflexivity|]. split.
  - apply one_batch; auto; [simpl; lia|]. intros es _ me -> v Hv. simpl in Hv. destruct Hv as [<-|[<-|[]]]; left; reflexivity.
  - intros T HT (_ & _ & Hs). apply C64_heavy in HT; auto; [|simpl; intros u v w [H|[H|[]]]; injection H as <- <- <-; reflexivity]. subst T.
    specialize (Hs 0 1 (rst_step _ _ 0 1 (or_introl eq_refl))). apply FRProofs.conn_nil in Hs. discriminate.
Qed.
(* A self-loop is selected by its vertex and returned as an edge of the forest. *)
Theorem C64_self_loop_refuted : forall thr fb, 0 < fb -> regions_ok loop_graph /\ gm loop_graph = total_degree loop_graph /\ graph_edges loop_graph = [(0, 0, 5%Z)] /\
  (exists T, boruvka_returns int32_max thr fb false loop_graph T) /\
  (forall T, boruvka_returns int32_max thr fb false loop_graph T -> T = [(0, 0, 5%Z)] /\ ~ forest T).
Proof.
  intros thr fb Hfb. assert (HR : regions_ok loop_graph).
  { split; [reflexivity|]. split; [reflexivity|]. split; [intros [|[|v]] Hv; simpl in *; lia|]. intros [|[|u]] [|[|v]]; simpl; lia. }
  split; auto. split; [reflexivity|]. split; [reflexivity|]. split.
  - apply one_batch; auto; [simpl; lia|]. intros es _ me -> v Hv. simpl in Hv. destruct Hv as [<-|[<-|[]]]; [right; exists 0; reflexivity|left; reflexivity].
  - intros T HT. apply loop_returns in HT; auto. split; auto. subst T. intros H. apply (H [] (0, 0, 5%Z) [] eq_refl). apply rst_refl.
Qed.
(* A weighted square with a diagonal and a separate vertex, negative weights and ties. *)
Example C64_example : exists (G : csr Z), length (graph_edges G) = 10 /\ regions_ok G /\ gm G = total_degree G /\
  (forall u v w, In (u, v, w) (graph_edges G) -> v < gn G /\ u <> v /\ (w <= int32_max)%Z /\ In (v, u, w) (graph_edges G)).
Proof.
  exists {| gn := 5; gm := 10; goff := [0; 3; 5; 8; 10]; gdeg := [3; 2; 3; 2; 0];
           gngh := combine [1; 2; 3; 0; 2; 0; 1; 3; 0; 2] [4; -7; 4; 4; 4; -7; 4; 2; 4; 2]%Z |}.
  split; [reflexivity|]. split.
  - split; [reflexivity|]. split; [reflexivity|]. split; [intros [|[|[|[|[|v]]]]] Hv; simpl in *; lia|].
    intros [|[|[|[|[|u]]]]] [|[|[|[|[|v]]]]]; simpl; lia.
  - split; [reflexivity|]. unfold graph_edges. simpl. intros u v w H. repeat (destruct H as [H|H]; [injection H as <- <- <-; repeat split; [lia|lia|discriminate|tauto]|]). destruct H.
Qed.
Print Assumptions C64_boruvka.
Print Assumptions C64_heavy.
Print Assumptions C64_heavy_refuted.
Print Assumptions C64_self_loop_refuted.
