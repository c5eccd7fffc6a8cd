(* C69: the clusterings that a SCAN index returns *)
From Verif Require Import Base ListUtil UFModel UFWait UFWaitProps SISpec SIModel SIUF SIProofs SICluster SIFinal.
From Coq Require Import ZArith Permutation Sorted Relation_Operators.
Local Open Scope nat_scope.
Unset Strict Implicit.

(* the similarities of all ordered pairs of neighbours, each once *)
Definition edge_similarities (n : nat) (adj : nat -> list nat) (sim : nat -> nat -> Z) (sims : list esim) : Prop :=
  Permutation (flat_map (fun u => map (fun v => {| source := u; neighbor := v; similarity := sim u v |}) (adj u)) (seq 0 n)) sims.
Record sim_graph (n mx : nat) (adj : nat -> list nat) (sim : nat -> nat -> Z) : Prop := {
  sg_range : forall u v, u < n -> In v (adj u) -> v < n;
  sg_sym : forall u v, u < n -> In v (adj u) -> In u (adj v) /\ sim u v = sim v u;
  sg_size : n <= mx }.

(* the construction makes no access outside its arrays *)
Theorem C69_index n adj sim sims sort_es sort_deg sort_thr : edge_similarities n adj sim sims ->
  sorts es_le sort_es -> sorts deg_le sort_deg -> sorts thr_ge sort_thr ->
  exists no, neighbor_order n adj sort_es sims = Some no /\
    forall order junk, Permutation (offset_stores2 (vertex_degrees sort_deg no)) order -> length junk = max_degree (vertex_degrees sort_deg no) + 1 ->
    exists co, core_order sort_deg sort_thr no order junk = Some co.
Proof.
  intros Hs H1 H2 H3. eexists. split; [exact (@neighbor_order_ok n adj sim sort_es sims H1 Hs)|]. intros order junk Hp Hj. eexists. apply core_order_ok; auto.
Qed.
Lemma built_facts n mx adj sim sims no co : sim_graph n mx adj sim -> edge_similarities n adj sim sims -> built n adj sims no co ->
  length no = n /\ (forall u, u < n -> Permutation (map (edge_sim sim u) (adj u)) (nth u no [])) /\ (forall u, u < n -> StronglySorted sim_ge (nth u no [])) /\
  (forall mu eps u, In u (get_cores n co mu eps) <-> core n adj sim mu eps u) /\
  (forall mu eps eps', (eps' <= eps)%Z -> exists k, get_cores n co mu eps = firstn k (get_cores n co mu eps')) /\ forall mu eps, NoDup (get_cores n co mu eps).
Proof.
  intros [G1 G2 G3] Hs (sort_es & sort_deg & sort_thr & order & junk & A1 & A2 & A3 & E1 & Hp & Hj & E2).
  rewrite (@neighbor_order_ok n adj sim sort_es sims A1 Hs) in E1. injection E1 as E1.
  assert (L : length no = n) by (rewrite <- E1, map_length, seq_length; auto).
  assert (R : forall u, u < n -> nth u no [] = row sort_es sims u) by (intros u Hu; rewrite <- E1; now apply nth_map_seq).
  assert (Hrow : forall u, u < n -> Permutation (map (edge_sim sim u) (adj u)) (nth u no [])) by (intros u Hu; rewrite R by auto; exact (@row_perm n adj sim sort_es sims A1 Hs u Hu)).
  assert (Hsort : forall u, u < n -> StronglySorted sim_ge (nth u no [])) by (intros u Hu; rewrite R by auto; now apply row_sorted).
  assert (Hsort' : forall u, u < length no -> StronglySorted sim_ge (nth u no [])) by (rewrite L; auto).
  rewrite (@core_order_ok no sort_deg sort_thr A2 order junk (fun _ => Hj) (fun _ => Hp)) in E2. injection E2 as E2. subst co.
  split; auto. split; auto. split; auto. rewrite <- L. split; [|split].
  - intros mu eps u. rewrite (proj2 (@get_cores_ok no sort_deg sort_thr Hsort' A2 A3 mu eps) u). unfold core. split.
    + intros [H1 H2]. rewrite (near_eq (adj := adj) (sim := sim) (n := n)) in H2; auto; lia.
    + intros [H1 H2]. rewrite (near_eq (adj := adj) (sim := sim) (n := n)); auto; lia.
  - intros mu eps eps'. now apply get_cores_prefix.
  - intros mu eps. now apply get_cores_ok.
Qed.

(* the vertices a non-core may follow *)
Definition may_follow (det : bool) n adj sim mu eps : nat -> nat -> Prop := if det then attracts_most n adj sim mu eps else attracts n adj sim mu eps.
(* one epsilon *)
Theorem C69_cluster n mx adj sim sims no co mu eps det result : sim_graph n mx adj sim -> edge_similarities n adj sim sims -> built n adj sims no co ->
  (det = true -> forall u v, u < n -> In v (adj u) -> (0 < sim u v)%Z) ->
  cluster n no co mx mu eps det result -> scan_clustering n adj sim mu eps (may_follow det n adj sim mu eps) mx result.
Proof.
  intros G Hs B Hp H. destruct (built_facts G Hs B) as (F1 & F2 & F3 & F4 & F5 & F6). destruct G as [G1 G2 G3]. exact (cluster_ok G1 G2 G3 F1 F2 F3 F4 Hp H).
Qed.
Theorem C69_cluster_runs n mx adj sim sims no co mu eps det : sim_graph n mx adj sim -> edge_similarities n adj sim sims -> built n adj sims no co ->
  exists result, cluster n no co mx mu eps det result.
Proof.
  intros G Hs B. destruct (built_facts G Hs B) as (F1 & F2 & F3 & F4 & F5 & F6). destruct G as [G1 G2 G3]. exact (cluster_runs G1 G2 G3 F1 F2 F3 F4 mu eps det).
Qed.
(* two cores have the same cluster exactly when they are linked, and a cluster is below n *)
Theorem C69_cores n adj sim mu eps pick mx out u v : scan_clustering n adj sim mu eps pick mx out -> core n adj sim mu eps u -> core n adj sim mu eps v ->
  nth u out mx < n /\ (nth u out mx = nth v out mx <-> linked n adj sim mu eps u v).
Proof.
  intros S Hu Hv. pose proof (sc_core S Hu) as Cu. pose proof (sc_core S Hv) as Cv. split; [apply Cu|]. split.
  - intros E. rewrite E in Cu. apply rst_trans with (nth v out mx); [apply Cu|apply rst_sym, Cv].
  - intros H. eapply cluster_unique; eauto.
Qed.
(* the deterministic result is determined *)
Theorem C69_deterministic n mx adj sim sims no co mu eps r1 r2 : sim_graph n mx adj sim -> edge_similarities n adj sim sims -> built n adj sims no co ->
  (forall u v, u < n -> In v (adj u) -> (0 < sim u v)%Z) ->
  cluster n no co mx mu eps true r1 -> cluster n no co mx mu eps true r2 -> r1 = r2.
Proof.
  intros G Hs B Hp H1 H2. pose proof (C69_cluster G Hs B (fun _ => Hp) H1) as S1. pose proof (C69_cluster G Hs B (fun _ => Hp) H2) as S2.
  destruct (built_facts G Hs B) as (F1 & F2 & F3 & F4 & F5 & F6).
  apply (nth_ext _ _ mx mx); [now rewrite (sc_length S1), (sc_length S2)|]. intros v Hv. rewrite (sc_length S1) in Hv.
  assert (C : forall u, core n adj sim mu eps u -> nth u r1 mx = nth u r2 mx) by (intros u Hu; eapply cluster_unique; [apply rst_refl|apply (sc_core S1 Hu)|apply (sc_core S2 Hu)]).
  destruct (in_dec Nat.eq_dec v (get_cores n co mu eps)) as [Hc|Hc]; [apply C; now apply F4|]. rewrite F4 in Hc.
  destruct (existsb (fun c => existsb (fun e => (neighbor e =? v) && (eps <=? similarity e)%Z) (nth c no [])) (get_cores n co mu eps)) eqn:X.
  - apply existsb_exists in X as (c & Ic & X). apply existsb_exists in X as (e & Ie & X). apply andb_true_iff in X as [X1 X2]. apply Nat.eqb_eq in X1. apply Z.leb_le in X2.
    assert (Cc : core n adj sim mu eps c) by now apply F4. assert (Ln : c < n) by apply Cc. apply (Permutation_in _ (Permutation_sym (F2 c Ln))) in Ie. apply in_map_iff in Ie as (w & <- & Iw). cbn in X1, X2. subst w.
    assert (Ha : exists c, attracts n adj sim mu eps c v) by (exists c; split; auto; split; auto).
    destruct (sc_border S1 Hv Hc Ha) as (c1 & P1 & E1). destruct (sc_border S2 Hv Hc Ha) as (c2 & P2 & E2). rewrite E1, E2. cbn in P1, P2. destruct P1 as [A1 M1], P2 as [A2 M2].
    assert (E : c1 = c2) by (specialize (M1 _ A2); specialize (M2 _ A1); lia). rewrite E. apply C. apply A2.
  - assert (N : forall c, ~ attracts n adj sim mu eps c v).
    { intros c [Cc (H3 & H4 & H5)]. assert (Y : existsb (fun c => existsb (fun e => (neighbor e =? v) && (eps <=? similarity e)%Z) (nth c no [])) (get_cores n co mu eps) = true); [|congruence].
      apply existsb_exists. exists c. split; [now apply F4|]. apply existsb_exists. exists (edge_sim sim c v). split; [apply (Permutation_in _ (F2 c H3)); now apply in_map|]. cbn. rewrite Nat.eqb_refl. now apply Z.leb_le. }
    rewrite (sc_none S1 Hv Hc N), (sc_none S2 Hv Hc N). reflexivity.
Qed.

(* several epsilons: one call for each, with the clustering for that epsilon *)
Theorem C69_cluster_many n mx adj sim sims no co mu epsilons det calls : sim_graph n mx adj sim -> edge_similarities n adj sim sims -> built n adj sims no co ->
  (det = true -> forall u v, u < n -> In v (adj u) -> (0 < sim u v)%Z) ->
  cluster_many n no co mx mu epsilons det calls ->
  Permutation (seq 0 (length epsilons)) (map snd calls) /\
  forall out i, In (out, i) calls -> scan_clustering n adj sim mu (nth i epsilons 0%Z) (may_follow det n adj sim mu (nth i epsilons 0%Z)) mx out.
Proof.
  intros G Hs B Hp H. destruct (built_facts G Hs B) as (F1 & F2 & F3 & F4 & F5 & F6). destruct G as [G1 G2 G3]. exact (many_ok G1 G2 G3 F1 F2 F3 F4 F5 Hp H).
Qed.
Theorem C69_cluster_many_runs n mx adj sim sims no co mu epsilons det is : sim_graph n mx adj sim -> edge_similarities n adj sim sims -> built n adj sims no co ->
  Permutation (seq 0 (length epsilons)) is -> StronglySorted (eps_ge epsilons) is ->
  exists calls, cluster_loop n no co mx mu epsilons det is [] [] [] (fun _ => mx) calls.
Proof.
  intros G Hs B _ S. destruct (built_facts G Hs B) as (F1 & F2 & F3 & F4 & F5 & F6). destruct G as [G1 G2 G3]. apply (loop_runs G1 G2 G3 F1 F2 F3 F4 F5); auto. intros; left; auto.
Qed.
(* no run goes on for ever: with enough steps for each thread, every phase has finished *)
Theorem C69_ends n mx adj sim sims no co mu eps s1 s2 s3 : sim_graph n mx adj sim -> edge_similarities n adj sim sims -> built n adj sims no co ->
  let cores := get_cores n co mu eps in
  let calls := single_calls no cores eps in
  let a := exec n s1 (init (own_cluster cores (fun _ => mx)) (unites mx calls)) in
  let b := exec n s2 (init (par (fst a)) (labels cores)) in
  let L := par (fst b) in
  (forall t, t < length calls -> wait_free_steps n <= count_occ Nat.eq_dec s1 t) ->
  (forall t, t < length cores -> wait_free_steps n <= count_occ Nat.eq_dec s2 t) ->
  finished a /\ finished b /\
  ((forall t, t < length (similar_pairs no cores eps) -> 3 <= count_occ Nat.eq_dec s3 t) ->
     finished (exec n s3 (init L (map (attach mx) (similar_pairs no cores eps))))) /\
  ((forall t, t < length (attachments no mx cores eps L) -> 2 * length (attachments no mx cores eps L) + 3 <= count_occ Nat.eq_dec s3 t) ->
     dfinished (dexec s3 (no_attachment mx, attachments no mx cores eps L))).
Proof.
  intros G Hs B cores calls a b L E1 E2. destruct (built_facts G Hs B) as (F1 & F2 & F3 & F4 & F5 & F6). destruct G as [G1 G2 G3].
  destruct (single_hyps G1 G2 G3 F1 F2 F3 (F4 mu eps)) as (S1 & S2 & S3). destruct (part_hyps (F4 mu eps) S1 S2) as (A1 & A2 & A3).
  assert (Fa : finished a).
  { intros t Ht. unfold a, unites in Ht. rewrite exec_len, init_len, map_length in Ht. apply (@part_unites_return n mx cores _ calls A1 A2 A3); auto. }
  assert (Fb : finished b).
  { intros t Ht. unfold b, labels in Ht. rewrite exec_len, init_len, map_length in Ht. apply (@part_labels_return n mx cores _ calls A1 A2 A3); auto. }
  destruct (clusters_ok (mx := mx) (F4 mu eps) S1 S2 S3 (L := L)) as [C1 C2]; [exists s1, s2; split; [exact Fa|split; [exact Fb|reflexivity]]|].
  assert (N : forall v, ~ core n adj sim mu eps v -> L v = mx) by (intros v Hv; rewrite C2 by auto; now rewrite (own_out (F4 mu eps))).
  split; auto. split; auto. split.
  - intros E3. apply (@attach_any_ends n mx L (similar_pairs no cores eps) (core n adj sim mu eps)); auto.
    + intros c v Hin. apply (in_pairs F1 F2 F3 (F4 mu eps)) in Hin as [Hc (H1 & H2 & _)]. split; auto. split; auto. eapply G1; eauto.
    + intros c Hc. eapply L_core; eauto.
  - intros E3. pose proof (attachments_targets mx no eps cores L) as AT. rewrite AT in *. rewrite map_length in E3. apply best_ends. exact E3.
Qed.

(* with a similarity of 0 the deterministic result differs from a clustering: the path 0 - 1 - 2, mu = 3,
   epsilon = 0.  1 is a core and similar to 0, and 0 stays unclustered *)
Definition path_adj (v : nat) : list nat := match v with 0 => [1] | 1 => [0; 2] | 2 => [1] | _ => [] end.
Fixpoint insert {A} (le : A -> A -> bool) (x : A) (l : list A) : list A :=
  match l with [] => [x] | y :: l' => if le x y then x :: y :: l' else y :: insert le x l' end.
Definition isort {A} (le : A -> A -> bool) (l : list A) : list A := fold_right (insert le) [] l.
Lemma isort_ok {A} (R : A -> A -> Prop) (le : A -> A -> bool) : (forall x y, le x y = true -> R x y) -> (forall x y, le x y = false -> R y x) -> (forall x y z, R x y -> R y z -> R x z) -> sorts R (isort le).
Proof.
  intros H1 H2 H3 l. split.
  - assert (I : forall x l, Permutation (x :: l) (insert le x l)).
    { intros x l'. induction l' as [|y l' IH]; simpl; auto. destruct (le x y); auto. rewrite perm_swap. now constructor. }
    induction l as [|x l IH]; simpl; auto. rewrite <- I. now constructor.
  - assert (I : forall x l, StronglySorted R l -> StronglySorted R (insert le x l)).
    { intros x l'. induction 1 as [|y l' Hs IH Hf]; simpl; [repeat constructor|]. destruct (le x y) eqn:E.
      - constructor; [constructor; auto|]. constructor; auto. eapply Forall_impl; [|exact Hf]. intros z Hz. eapply H3; eauto.
      - constructor; auto. rewrite Forall_forall in *. intros z Hz. assert (Hi : In z (x :: l')).
        { clear -Hz. induction l' as [|w l' IH]; simpl in *; auto. destruct (le x w); simpl in *; intuition. }
        destruct Hi as [<-|Hi]; auto. }
    induction l as [|x l IH]; simpl; [constructor|]. now apply I.
Qed.
Definition es_leb (a b : esim) : bool := (source a <? source b) || ((source a =? source b) && (similarity b <=? similarity a)%Z).
Lemma sort_es_ok : sorts es_le (isort es_leb).
Proof.
  apply isort_ok; unfold es_le, es_leb.
  - intros x y H. apply orb_true_iff in H. rewrite andb_true_iff, Nat.ltb_lt, Nat.eqb_eq, Z.leb_le in H. auto.
  - intros x y H. apply orb_false_iff in H as [H1 H2]. apply Nat.ltb_ge in H1. apply andb_false_iff in H2. rewrite Nat.eqb_neq, Z.leb_gt in H2. lia.
  - intros x y z. lia.
Qed.
Lemma sort_deg_ok : sorts deg_le (isort (fun a b => snd a <=? snd b)).
Proof. apply isort_ok; unfold deg_le; [intros x y H; now apply Nat.leb_le|intros x y H; apply Nat.leb_gt in H; lia|intros; lia]. Qed.
Lemma sort_thr_ok : sorts thr_ge (isort (fun a b => (snd b <=? snd a)%Z)).
Proof. apply isort_ok; unfold thr_ge; [intros x y H; now apply Z.leb_le|intros x y H; apply Z.leb_gt in H; lia|intros; lia]. Qed.
Definition edge_list (n : nat) (adj : nat -> list nat) (sim : nat -> nat -> Z) : list esim :=
  flat_map (fun u => map (fun v => {| source := u; neighbor := v; similarity := sim u v |}) (adj u)) (seq 0 n).
Definition sample_no (n : nat) (adj : nat -> list nat) (sim : nat -> nat -> Z) : list (list esim) :=
  match neighbor_order n adj (isort es_leb) (edge_list n adj sim) with Some no => no | None => [] end.
Definition sample_co (no : list (list esim)) : list (list (nat * Z)) :=
  let sd := isort (fun a b => snd a <=? snd b) in let vd := vertex_degrees sd no in
  match core_order sd (isort (fun a b => (snd b <=? snd a)%Z)) no (rev (offset_stores2 vd)) (repeat 77 (max_degree vd + 1)) with Some co => co | None => [] end.
Lemma sample_built n mx adj sim : sim_graph n mx adj sim -> built n adj (edge_list n adj sim) (sample_no n adj sim) (sample_co (sample_no n adj sim)).
Proof.
  intros G. exists (isort es_leb), (isort (fun a b => snd a <=? snd b)), (isort (fun a b => (snd b <=? snd a)%Z)).
  destruct (@C69_index n adj sim (edge_list n adj sim) _ _ _ (Permutation_refl _) sort_es_ok sort_deg_ok sort_thr_ok) as (no & E & H).
  assert (En : sample_no n adj sim = no) by (unfold sample_no; now rewrite E). rewrite En. set (vd := vertex_degrees (isort (fun a b => snd a <=? snd b)) no) in *.
  exists (rev (offset_stores2 vd)), (repeat 77 (max_degree vd + 1)). split; [apply sort_es_ok|]. split; [apply sort_deg_ok|]. split; [apply sort_thr_ok|]. split; auto.
  split; [apply Permutation_rev|]. split; [apply repeat_length|]. destruct (H _ _ (Permutation_rev _) (repeat_length 77 (max_degree vd + 1))) as (co & Ec). fold vd in Ec. unfold sample_co. fold vd. now rewrite Ec.
Qed.
Definition zero_no := sample_no 3 path_adj (fun _ _ => 0%Z).
Definition zero_co := sample_co zero_no.
Lemma zero_graph : sim_graph 3 9 path_adj (fun _ _ => 0%Z).
Proof.
  split; [| |lia].
  - intros u v Hu Hv. destruct u as [|[|[|u]]]; simpl in Hv; lia.
  - intros u v Hu Hv. split; auto. destruct u as [|[|[|u]]]; simpl in Hv; [| | |lia]; repeat (destruct Hv as [<-|Hv]; [simpl; auto|]); destruct Hv.
Qed.
Theorem C69_zero_similarity_refuted : exists n mx adj sim no co mu eps result,
  sim_graph n mx adj sim /\ built n adj (edge_list n adj sim) no co /\ (forall u v, (0 <= sim u v)%Z) /\ cluster n no co mx mu eps true result /\
  exists v, v < n /\ ~ core n adj sim mu eps v /\ (exists c, attracts n adj sim mu eps c v) /\ nth v result mx = mx.
Proof.
  exists 3, 9, path_adj, (fun _ _ => 0%Z), zero_no, zero_co, 3, 0%Z, [9; 1; 9]. split; [exact zero_graph|]. split; [exact (sample_built zero_graph)|]. split; [intros; lia|]. split.
  - apply cluster_eq. right. assert (E : get_cores 3 zero_co 3 0%Z = [1]) by (vm_compute; reflexivity). rewrite E. split; [discriminate|]. eexists. eexists. split; [|split].
    + exists [], (repeat 0 9). cbv zeta. split; [|split; [|reflexivity]].
      * intros t Ht. vm_compute in Ht. lia.
      * intros t Ht. vm_compute in Ht. assert (t = 0) by lia. subst. eexists. vm_compute. reflexivity.
    + exists [0; 0; 1; 1]. cbv zeta. split; [|reflexivity]. intros th Hth. vm_compute in Hth. repeat (destruct Hth as [<-|Hth]; [reflexivity|]). destruct Hth.
    + vm_compute. reflexivity.
  - exists 0. split; [lia|]. split; [intros [_ H]; vm_compute in H; lia|]. split; [|reflexivity]. exists 1. split; [split; [lia|vm_compute; lia]|]. split; [lia|]. split; [simpl; auto|lia].
Qed.

(* Two triangles 0 1 2 and 4 5 6 joined through 3; similarities are counted in twelfths.  With mu = 3
   both triangles are clusters, and 3 goes to the more similar one *)
Definition tri_adj (v : nat) : list nat :=
  match v with 0 => [1; 2] | 1 => [0; 2] | 2 => [0; 1; 3] | 3 => [2; 4] | 4 => [3; 5; 6] | 5 => [4; 6] | 6 => [4; 5] | _ => [] end.
Definition tri_sim (u v : nat) : Z :=
  if (u =? 3) || (v =? 3) then (if (u =? 2) || (v =? 2) then 6%Z else 7%Z) else if (u + v =? 1) || (u + v =? 11) then 12%Z else 10%Z.
Lemma tri_graph : sim_graph 7 100 tri_adj tri_sim.
Proof.
  split; [| |lia].
  - intros u v Hu Hv. do 7 (destruct u as [|u]; [simpl in Hv; lia|]). lia.
  - intros u v Hu Hv. do 7 (destruct u as [|u]; [repeat (destruct Hv as [<-|Hv]; [split; [simpl; auto|reflexivity]|]); destruct Hv|]). lia.
Qed.
Example C69_two_triangles : let no := sample_no 7 tri_adj tri_sim in let co := sample_co no in
  built 7 tri_adj (edge_list 7 tri_adj tri_sim) no co /\ get_cores 7 co 3 6%Z = [0; 1; 5; 6; 2; 4; 3] /\ get_cores 7 co 3 8%Z = [0; 1; 5; 6; 2; 4] /\
  (forall u v, u < 7 -> In v (tri_adj u) -> (0 < tri_sim u v)%Z) /\
  (exists r, cluster 7 no co 100 3 8%Z true r) /\ exists calls, cluster_many 7 no co 100 3 [6; 8; 11]%Z false calls.
Proof.
  cbv zeta. split; [exact (sample_built tri_graph)|]. split; [vm_compute; reflexivity|]. split; [vm_compute; reflexivity|]. split; [|split].
  - intros u v Hu Hv. do 7 (destruct u as [|u]; [repeat (destruct Hv as [<-|Hv]; [vm_compute; reflexivity|]); destruct Hv|]). lia.
  - exact (C69_cluster_runs 3 8%Z true tri_graph (Permutation_refl _) (sample_built tri_graph)).
  - assert (S : StronglySorted (eps_ge [6; 8; 11]%Z) [2; 1; 0]) by (unfold eps_ge; repeat (constructor; simpl; try lia)).
    destruct (C69_cluster_many_runs 3 (epsilons := [6; 8; 11]%Z) (is := [2; 1; 0]) false tri_graph (Permutation_refl _) (sample_built tri_graph)) as (calls & H); auto.
    + simpl. apply perm_trans with [2; 0; 1]; [|constructor; apply perm_swap]. apply perm_trans with [0; 2; 1]; [constructor; apply perm_swap|apply perm_swap].
    + exists calls, [2; 1; 0]. split; [|auto]. simpl. apply perm_trans with [2; 0; 1]; [|constructor; apply perm_swap]. apply perm_trans with [0; 2; 1]; [constructor; apply perm_swap|apply perm_swap].
Qed.

Print Assumptions C69_index.
Print Assumptions C69_cluster.
Print Assumptions C69_cluster_runs.
Print Assumptions C69_cores.
Print Assumptions C69_deterministic.
Print Assumptions C69_cluster_many.
Print Assumptions C69_cluster_many_runs.
Print Assumptions C69_ends.
Print Assumptions C69_zero_similarity_refuted.
