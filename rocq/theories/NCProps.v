(* C84: nghCount and edgeMapCount. *)
Unset Strict Implicit.
From Coq Require Import Sorted Permutation.
From Verif Require Import Base ListUtil SFModel SFSpec HTModel HTSpec KCModel HGModel HGSpec HGProofs HGProps NCModel NCSpec NCProofs.

(* The keys an edgeMapCount over vs hands to the histogram: used in hypotheses only, to say what
   its sample is a sample of *)
Definition hist_keys (nghs : nat -> list nat) (cond : nat -> bool) (empty : nat) (vs : list nat) : list nat :=
  map (fun u => if cond u then u else empty) (flat_map nghs vs).

(* C84.  The method edgeMapCount of EdgeMap on an undirected graph, whichever direction it chooses:
   apply_f is called exactly once for every vertex with a neighbour in the subset, with the number
   of its edges from the subset; the result consists of what the calls returned; the table is left
   empty.  The empty key is not a vertex. *)
Theorem C84_edgeMapCount : forall n nghs f empty h shuffle junk order m threshold vs t,
  on_vertices n nghs -> undirected n nghs -> vertex_set n vs -> n <= empty -> keeps_vertex f ->
  reorders shuffle -> good_params h (hist_keys nghs (fun _ => true) empty vs) -> Permutation order (seq 0 n) -> all_empty t ->
  exists called res t', em_count n nghs f empty h shuffle junk false order m threshold vs t = Returns res t' /\ all_empty t' /\
    one_call_each (edges_from nghs vs) (fun _ => true) called /\ Permutation res (outputs f called).
Proof.
  intros n nghs f empty h shuffle junk order m threshold vs t Hg HU Hv He Hf Hsh Hp Ho Ht. unfold em_count. destruct (em_chooses_dense nghs m threshold vs).
  - destruct (@em_dense_ok n nghs f order vs t Ho Hv Hf) as (res & E1 & E2). eexists _, res, t. split; [exact E1|]. split; auto. split; [|exact E2].
    now apply (@dense_one_call n nghs (fun _ => true) Hg).
  - destruct (@sparse_ok n nghs (fun _ => true) empty Hg He f h shuffle junk vs t Hsh Hp Ht) as (called & t' & E1 & E2 & E3).
    exists called, (outputs f called), t'. split; [exact E1|]. split; auto. destruct E3 as [E3|((u & _ & [=]) & _)]. split; auto.
Qed.

(* The sparse direction, on any graph and with any condition: one call for every vertex that
   satisfies the condition and has an edge from the subset.  If some neighbour does not satisfy the
   condition and the subset has at least medthr (5000000) edges, the neighbours that do not satisfy
   it may be counted as occurrences of the empty key. *)
Theorem C84_sparse : forall n nghs cond f empty h shuffle junk vs t,
  on_vertices n nghs -> n <= empty -> reorders shuffle -> good_params h (hist_keys nghs cond empty vs) -> all_empty t ->
  exists called t', count_sparse nghs cond f empty h shuffle junk vs t = Returns (outputs f called) t' /\ all_empty t' /\
    (one_call_each (edges_from nghs vs) cond called \/
     (exists u, In u (flat_map nghs vs) /\ cond u = false) /\ h_medthr h <= length (flat_map nghs vs) /\ counted (hist_keys nghs cond empty vs) called).
Proof. intros n nghs cond f empty h shuffle junk vs t Hg He Hsh Hp Ht. exact (@sparse_ok n nghs cond empty Hg He f h shuffle junk vs t Hsh Hp Ht). Qed.

(* The dense direction counts a vertex's own edges into the subset.  On an undirected graph these
   are the edges from the subset. *)
Theorem C84_dense_calls : forall n nghs cond order vs, Permutation order (seq 0 n) -> vertex_set n vs ->
  NoDup (map fst (dense_calls nghs cond order vs)) /\
  (forall u c, In (u, c) (dense_calls nghs cond order vs) <-> u < n /\ cond u = true /\ c = edges_to nghs vs u /\ 0 < c) /\
  (on_vertices n nghs -> undirected n nghs -> one_call_each (edges_from nghs vs) cond (dense_calls nghs cond order vs)).
Proof.
  intros n nghs cond order vs Ho Hv. destruct (@dense_calls_ok n nghs cond order vs Ho Hv) as [H1 H2]. split; auto. split; auto.
  intros Hg HU. now apply (@dense_one_call n nghs cond Hg).
Qed.

(* The dense direction of nghCount, with an apply_f that always returns something: the members are
   the results of the calls, and the vertices that do not satisfy the condition for which the
   uninitialised memory happens to hold true *)
Theorem C84_nghCount_dense : forall n nghs cond f empty h shuffle junk mem order m vs t v0 vs',
  vs = v0 :: vs' -> vertex_set n vs -> keeps_vertex f -> (forall p, f p <> None) -> Permutation order (seq 0 n) ->
  exists res, nghCount n nghs cond f empty h shuffle junk false true false mem order m vs t = Returns res t /\ NoDup (map fst res) /\
    forall u w, In (u, w) res <-> In (u, w) (outputs f (dense_calls nghs cond order vs)) \/ u < n /\ cond u = false /\ mem u = (true, w).
Proof.
  intros n nghs cond f empty h shuffle junk mem order m vs t v0 vs' Evs Hv Hf Hs Ho. unfold nghCount, free_chooses_dense, free_dense.
  assert (Hno : NoDup order) by (apply (Permutation_NoDup (Permutation_sym Ho)), seq_NoDup).
  destruct (@free_out_ok nghs cond f vs order Hs Hno mem) as (out & E & Hout). rewrite E. exists (dense_members n out). split; [now rewrite Evs|].
  destruct (@dense_calls_ok n nghs cond order vs Ho Hv) as [_ Hd].
  assert (Hin : forall u, u < n -> In u order) by (intros u Hu; apply (Permutation_in _ (Permutation_sym Ho)), in_seq; lia). split.
  - unfold dense_members. assert (G : forall s k, NoDup (map fst (flat_map (fun i => if fst (out i) then [(i, snd (out i))] else []) (seq s k))) /\ forall p, In p (flat_map (fun i => if fst (out i) then [(i, snd (out i))] else []) (seq s k)) -> s <= fst p).
    { intros s k. revert s. induction k as [|k IH]; intros s; simpl; [split; [constructor|tauto]|]. destruct (IH (S s)) as [I1 I2]. split.
      - destruct (fst (out s)); auto. simpl. constructor; auto. intros Hi. apply in_map_iff in Hi as (p & Ep & Hi). apply I2 in Hi. lia.
      - intros p Hp. apply in_app_or in Hp as [Hp|Hp]; [|apply I2 in Hp; lia]. destruct (fst (out s)); simpl in Hp; [|contradiction]. destruct Hp as [<-|[]]. simpl. lia. }
    apply G.
  - intros u w. unfold dense_members. rewrite in_flat_map. split.
    + intros (i & Hi & Hw). apply in_seq in Hi. destruct (fst (out i)) eqn:Ei; simpl in Hw; [|contradiction]. destruct Hw as [[= <- <-]|[]].
      destruct (Hout i) as (O1 & O2 & O3). destruct (cond i) eqn:Ec.
      * left. destruct (Nat.eq_dec (dense_count nghs vs i) 0) as [Hz|Hz]; [rewrite O3 in Ei; auto; [discriminate|apply Hin; lia]|].
        specialize (O2 (Hin i ltac:(lia)) eq_refl ltac:(lia)). rewrite dense_count_ok in * by apply Hv. destruct (f (i, edges_to nghs vs i)) as [q|] eqn:Eq; [|discriminate].
        injection O2 as ->. unfold outputs. apply in_flat_map. exists (i, edges_to nghs vs i). split; [apply Hd; repeat split; auto; lia|]. rewrite Eq. left. apply Hf in Eq. simpl in *. destruct q; simpl in *; now subst.
      * right. split; [lia|]. split; auto. rewrite <- O1 by auto. destruct (out i). simpl in *. now subst.
    + intros [H|(Hu & Ec & Em)].
      * unfold outputs in H. apply in_flat_map in H as ([u' c] & Hc & H). destruct (f (u', c)) as [q|] eqn:Eq; [|contradiction]. destruct H as [->|[]].
        pose proof (Hf _ _ Eq) as Hu. simpl in Hu. subst u'. apply Hd in Hc as (Hu & Ec & -> & Hc). exists u. split; [apply in_seq; lia|].
        destruct (Hout u) as (_ & O2 & _). rewrite dense_count_ok in O2 by apply Hv. specialize (O2 (Hin u Hu) Ec Hc). rewrite Eq in O2. injection O2 as ->. now left.
      * exists u. split; [apply in_seq; lia|]. destruct (Hout u) as (O1 & _). rewrite O1, Em by auto. now left.
Qed.

(* -- what fails -------------------------------------------------------------------------------- *)
Definition default_hist : hist_params := {| h_hash := fun k => k; h_light := fun k => k mod 2; h_nb := 2; h_width := 256; h_seqthr := 3; h_medthr := 8; h_one := false;
  h_csthr := 4; h_csnb := 2; h_csorder := [1; 0]; h_junk := 99; h_cjunk := 98; h_o3 := [1; 0]; h_o5 := [0; 1]; h_sample := [3; 9; 9; 9] |}.
Definition self (p : nat * nat) : option (nat * nat) := Some p.

(* On a directed graph the result depends on the direction that is chosen: on the single edge 0 ->
   1 the sparse direction finds 1 below {0}, the dense direction finds nothing. *)
Theorem C84_directed_refuted : ~ forall n nghs f empty h shuffle junk order m thr1 thr2 vs t res1 res2 t1 t2,
  on_vertices n nghs -> vertex_set n vs -> n <= empty -> keeps_vertex f ->
  reorders shuffle -> good_params h (hist_keys nghs (fun _ => true) empty vs) -> Permutation order (seq 0 n) -> all_empty t ->
  em_count n nghs f empty h shuffle junk false order m thr1 vs t = Returns res1 t1 ->
  em_count n nghs f empty h shuffle junk false order m thr2 vs t = Returns res2 t2 -> Permutation res1 res2.
Proof.
  intros H. assert (HP : Permutation (@nil (nat * nat)) [(1, 1)]).
  { apply (H 2 (fun v => if v =? 0 then [1] else []) self 9 default_hist (fun l => l) 0 [0; 1] 1 (Some 0) (Some 5) [0] [] [] [(1, 1)] [] (new_table 0 2)).
    - intros v u Hu. destruct (v =? 0); simpl in Hu; [lia|contradiction].
    - split; [repeat constructor; simpl; tauto|]. intros v [<-|[]]. lia.
    - lia.
    - intros p q [= <-]. reflexivity.
    - intros l. apply Permutation_refl.
    - split; [intros k; apply Nat.mod_upper_bound; simpl; lia|]. simpl. repeat split; try lia; try apply perm_swap; apply Permutation_refl.
    - apply Permutation_refl.
    - intros c [].
    - vm_compute. reflexivity.
    - vm_compute. reflexivity. }
  apply Permutation_nil in HP. discriminate.
Qed.

(* nghCount on an undirected graph: a vertex that does not satisfy the condition can be a member of
   the result.  Here the path 0 - 1 - 2 with the subset {1} and the condition that excludes 2. *)
Theorem C84_condition_refuted : ~ forall n nghs cond f empty h shuffle junk no_dense dense_only mem order m vs t res t' u,
  on_vertices n nghs -> undirected n nghs -> vertex_set n vs -> n <= empty -> keeps_vertex f -> (forall p, f p <> None) ->
  reorders shuffle -> good_params h (hist_keys nghs cond empty vs) -> Permutation order (seq 0 n) -> all_empty t ->
  nghCount n nghs cond f empty h shuffle junk no_dense dense_only false mem order m vs t = Returns res t' ->
  In u (map fst res) -> cond u = true.
Proof.
  intros H. assert (HP : (2 <? 2) = true); [|discriminate].
  apply (H 3 (fun v => match v with 0 => [1] | 1 => [0; 2] | 2 => [1] | _ => [] end) (fun u => u <? 2) self 9 default_hist (fun l => l) 0 false false
    (fun _ => (true, 7)) [0; 1; 2] 4 [1] [] [(0, 1); (2, 7)] [] 2).
  - intros [|[|[|v]]] u Hu; simpl in Hu; lia.
  - intros [|[|[|u]]] [|[|[|v]]] Hu Hv; try lia; reflexivity.
  - split; [repeat constructor; simpl; tauto|]. intros v [<-|[]]. lia.
  - lia.
  - intros p q [= <-]. reflexivity.
  - discriminate.
  - intros l. apply Permutation_refl.
  - split; [intros k; apply Nat.mod_upper_bound; simpl; lia|]. simpl. repeat split; try lia; try apply perm_swap; apply Permutation_refl.
  - apply Permutation_refl.
  - intros c [].
  - vm_compute. reflexivity.
  - simpl. auto.
Qed.

(* nghCount in the dense direction reads the value of an optional without one *)
Theorem C84_nothing_refuted : ~ forall n nghs f empty h shuffle junk no_dense dense_only mem order m vs t,
  on_vertices n nghs -> undirected n nghs -> vertex_set n vs -> n <= empty -> keeps_vertex f ->
  reorders shuffle -> good_params h (hist_keys nghs (fun _ => true) empty vs) -> Permutation order (seq 0 n) -> all_empty t ->
  nghCount n nghs (fun _ => true) f empty h shuffle junk no_dense dense_only false mem order m vs t <> Invalid.
Proof.
  intros H. apply (H 2 (fun v => match v with 0 => [1] | 1 => [0] | _ => [] end) (fun _ => None) 9 default_hist (fun l => l) 0 false false (fun _ => (false, 0)) [0; 1] 2 [0] []).
  - intros [|[|v]] u Hu; simpl in Hu; lia.
  - intros [|[|u]] [|[|v]] Hu Hv; try lia; reflexivity.
  - split; [repeat constructor; simpl; tauto|]. intros v [<-|[]]. lia.
  - lia.
  - discriminate.
  - intros l. apply Permutation_refl.
  - split; [intros k; apply Nat.mod_upper_bound; simpl; lia|]. simpl. repeat split; try lia; try apply perm_swap; apply Permutation_refl.
  - apply Permutation_refl.
  - intros c [].
  - vm_compute. reflexivity.
Qed.

(* apply_f is called for the empty key, which is not a vertex: two vertices with many common
   neighbours (0 .. 3, of which only 3 satisfies the condition) *)
Theorem C84_empty_key_refuted : ~ forall n nghs cond empty h shuffle junk mem order m vs t res t' u,
  on_vertices n nghs -> undirected n nghs -> vertex_set n vs -> n <= empty ->
  reorders shuffle -> good_params h (hist_keys nghs cond empty vs) -> Permutation order (seq 0 n) -> all_empty t ->
  nghCount n nghs cond self empty h shuffle junk true false false mem order m vs t = Returns res t' ->
  In u (map fst res) -> u < n.
Proof.
  intros H. assert (HP : 9 < 6); [|lia].
  apply (H 6 (fun v => if v <? 4 then [4; 5] else if v <? 6 then [0; 1; 2; 3] else []) (fun u => u =? 3) 9 default_hist (fun l => l) 0 (fun _ => (false, 0)) [0; 1; 2; 3; 4; 5] 16 [4; 5] []
    [(3, 2); (9, 6)] (new_table 0 4) 9).
  - intros v u Hu. destruct (v <? 4); [|destruct (v <? 6)]; simpl in Hu; lia.
  - intros u v Hu Hv. do 6 (destruct u as [|u]; [do 6 (destruct v as [|v]; [reflexivity|]); lia|]). lia.
  - split; [repeat constructor; simpl; intuition discriminate|]. intros v [<-|[<-|[]]]; lia.
  - lia.
  - intros l. apply Permutation_refl.
  - split; [intros k; apply Nat.mod_upper_bound; simpl; lia|]. simpl. repeat split; try lia; try apply perm_swap; try apply Permutation_refl; [repeat constructor|intros x Hx; simpl in *; tauto].
  - apply Permutation_refl.
  - intros c [].
  - vm_compute. reflexivity.
  - simpl. auto.
Qed.

(* -- a case that meets the hypotheses ------------------------------------------------------------ *)
Definition square (v : nat) : list nat := match v with 0 => [1; 3] | 1 => [0; 2] | 2 => [1; 3] | 3 => [0; 2] | _ => [] end.
Example C84_example : on_vertices 4 square /\ undirected 4 square /\ vertex_set 4 [0; 2] /\ good_params default_hist (hist_keys square (fun _ => true) 9 [0; 2]) /\
  (exists t, em_count 4 square self 9 default_hist (fun l => l) 0 false [3; 1; 0; 2] 8 (Some 20) [0; 2] (new_table 0 1) = Returns [(1, 2); (3, 2)] t) /\
  (exists t, em_count 4 square self 9 default_hist (fun l => l) 0 false [3; 1; 0; 2] 8 None [0; 2] (new_table 0 1) = Returns [(1, 2); (3, 2)] t).
Proof.
  split; [intros [|[|[|[|v]]]] u Hu; simpl in Hu; lia|]. split; [intros [|[|[|[|u]]]] [|[|[|[|v]]]] Hu Hv; try lia; reflexivity|].
  split; [split; [repeat constructor; simpl; intuition discriminate|intros v [<-|[<-|[]]]; lia]|]. split.
  - split; [intros k; apply Nat.mod_upper_bound; simpl; lia|]. simpl. repeat split; try lia; try apply perm_swap; apply Permutation_refl.
  - split; eexists; vm_compute; reflexivity.
Qed.

Print Assumptions C84_edgeMapCount.
Print Assumptions C84_sparse.
Print Assumptions C84_dense_calls.
Print Assumptions C84_nghCount_dense.
Print Assumptions C84_directed_refuted.
Print Assumptions C84_condition_refuted.
Print Assumptions C84_nothing_refuted.
Print Assumptions C84_empty_key_refuted.
