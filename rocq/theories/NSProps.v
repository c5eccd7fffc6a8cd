(* C71: the simple implementation of SCAN. *)
From Verif Require Import Base ListUtil ISSpec SISpec SIModel SIProofs SMFinal SMProps HTModel HTSpec HTProofs HTProps NSSpec NSModel NSProofs NSTables.
From Coq Require Import ZArith Cantor Relation_Operators Sorted.
Local Open Scope nat_scope.
Unset Strict Implicit.

(* graph->m *)
Definition num_directed (n : nat) (adj : nat -> list nat) : nat := list_sum (map (fun u => length (adj u)) (seq 0 n)).

(* The tables can be filled, whatever the hash functions: the insertions return *)
Theorem C71_tables : forall hash_v hash_e cos n adj, simple_adj n adj ->
  (exists adjacency, fills_adjacency hash_v n adj adjacency) /\
  forall adjacency, fills_adjacency hash_v n adj adjacency ->
  exists similarities, fills_similarities hash_v hash_e cos n adj adjacency (num_directed n adj) similarities.
Proof.
  intros hash_v hash_e cos n adj HA. split.
  - assert (X : forall u, exists t, fills hash_v tt (table_for tt (length (adj u))) (adjacency_calls adj u) t) by (intros u; apply fills_exists; unfold adjacency_calls; now rewrite map_length).
    assert (Y : forall k, exists f : nat -> table unit, forall u, u < k -> fills hash_v tt (table_for tt (length (adj u))) (adjacency_calls adj u) (f u)).
    { induction k as [|k (f & Hf)]; [exists (fun _ => []); intros; lia|]. destruct (X k) as (t & Ht). exists (fun u => if u =? k then t else f u). intros u Hu.
      destruct (Nat.eqb_spec u k) as [->|]; auto. apply Hf. lia. }
    apply Y.
  - intros adjacency Hadj. destruct (@fills_exists _ hash_e (Some 0%Z) (num_directed n adj) (sim_calls cos n adj) (sim_calls_length cos n adj)) as (t & Ht).
    exists t, (sim_calls cos n adj). split; auto. now apply similarity_calls_ok.
Qed.
(* A lookup of two vertices, in either order, gives their similarity if they are adjacent, and the default
   (a NaN) otherwise; it ends *)
Theorem C71_similarities : forall hash_v hash_e cos n adj adjacency similarities,
  simple_adj n adj -> (forall a b c, cos a b c = cos a c b) ->
  fills_adjacency hash_v n adj adjacency -> fills_similarities hash_v hash_e cos n adj adjacency (num_directed n adj) similarities ->
  forall u v, u < n -> v < n -> u <> v ->
  find hash_e (Some 0%Z) similarities (edge_key u v) (length similarities) None =
    Some (if existsb (Nat.eqb v) (adj u) then Some (structural cos adj u v) else None).
Proof. intros hash_v hash_e cos n adj adjacency similarities HA Hcos Hadj Hs u v. eapply lookup_ok; eauto. Qed.

(* remove_duplicates_ordered *)
Definition sorts_out (dedup : list nat -> list nat) : Prop := forall l, increasing (dedup l) /\ forall x, In x (dedup l) <-> In x l.

(* Cluster returns all clusters of every vertex, whichever direction edgeMap takes in each round *)
Theorem C71_cluster : forall hash_v hash_e cos n adj adjacency similarities dedup pull mu eps,
  simple_adj n adj -> (forall a b c, cos a b c = cos a c b) ->
  fills_adjacency hash_v n adj adjacency -> fills_similarities hash_v hash_e cos n adj adjacency (num_directed n adj) similarities ->
  sorts_out dedup ->
  exists out, naive_cluster dedup pull n adj (is_similar hash_e similarities eps) mu = Some out /\
    all_clusters n adj (structural cos adj) mu eps out.
Proof.
  intros hash_v hash_e cos n adj adjacency similarities dedup pull mu eps HA Hcos Hadj Hs Hd. apply naive_ok; auto.
  - intros u v Hu Hv. eapply structural_sym; eauto.
  - intros u v Hu Hv. destruct (sa_range HA Hu Hv) as [Hvn Hne]. unfold is_similar. rewrite (C71_similarities HA Hcos Hadj Hs) by auto.
    rewrite (proj2 (memb_In v (adj u)) Hv). reflexivity.
Qed.
(* There is only one such result *)
Theorem C71_unique : forall n adj sim mu eps out out', all_clusters n adj sim mu eps out -> all_clusters n adj sim mu eps out' -> out = out'.
Proof.
  intros n adj sim mu eps out out' [L1 C1 O1] [L2 C2 O2]. apply (nth_ext _ _ [] []); [congruence|]. intros v Hv. rewrite L1 in Hv.
  assert (U : forall x c c', cluster_of n adj sim mu eps x c -> cluster_of n adj sim mu eps x c' -> c = c').
  { intros x c c' (A1 & A2 & A3) (B1 & B2 & B3). specialize (A3 c' B1 B2). specialize (B3 c A1 A2). lia. }
  destruct (le_dec mu (1 + length (filter (fun w => (eps <=? sim v w)%Z) (adj v)))) as [Q|Q].
  - destruct (C1 v (conj Hv Q)) as (c & -> & K). destruct (C2 v (conj Hv Q)) as (c' & -> & K'). now rewrite (U _ _ _ K K').
  - assert (N : ~ core n adj sim mu eps v) by (intros [_ X]; tauto). destruct (O1 v Hv N) as [S1 I1], (O2 v Hv N) as [S2 I2].
    assert (I : forall c, In c (nth v out []) <-> In c (nth v out' [])) by (intros c; rewrite I1, I2; tauto).
    revert S1 S2 I. generalize (nth v out []) (nth v out' []). clear. unfold increasing. induction l as [|a l IH]; intros l' S1 S2 I.
    + destruct l' as [|b l']; auto. destruct (proj2 (I b) (or_introl eq_refl)).
    + destruct l' as [|b l']; [destruct (proj1 (I a) (or_introl eq_refl))|]. apply StronglySorted_inv in S1 as [S1 F1], S2 as [S2 F2]. rewrite Forall_forall in F1, F2.
      assert (E : a = b). { destruct (proj1 (I a) (or_introl eq_refl)) as [|Ha]; auto. destruct (proj2 (I b) (or_introl eq_refl)) as [|Hb]; auto. specialize (F1 b Hb). specialize (F2 a Ha). lia. }
      subst b. f_equal. apply IH; auto. intros c. split; intros Hc.
      * destruct (proj1 (I c) (or_intror Hc)) as [->|]; auto. specialize (F1 c Hc). lia.
      * destruct (proj2 (I c) (or_intror Hc)) as [->|]; auto. specialize (F2 c Hc). lia.
Qed.
(* It agrees with a clustering by the index (C69) of the same similarities: the same vertices are in no
   cluster, the same cluster for a core, and one of those listed for any other vertex *)
Theorem C71_agrees : forall n adj sim mu eps (pick : nat -> nat -> Prop) mx index out, n <= mx ->
  (forall u v, u < n -> In v (adj u) -> v < n) -> (forall c v, pick c v -> attracts n adj sim mu eps c v) ->
  scan_clustering n adj sim mu eps pick mx index -> all_clusters n adj sim mu eps out ->
  forall v, v < n -> (core n adj sim mu eps v -> nth v out [] = [nth v index mx]) /\
    (nth v out [] = [] <-> nth v index mx = mx) /\ (nth v out [] <> [] -> In (nth v index mx) (nth v out [])).
Proof.
  intros n adj sim mu eps pick mx index out Hmx Hr Hpick [L1 C1 B1 N1] [L2 C2 O2] v Hv.
  assert (U : forall x c c', cluster_of n adj sim mu eps x c -> cluster_of n adj sim mu eps x c' -> c = c').
  { intros x c c' (A1 & A2 & A3) (D1 & D2 & D3). specialize (A3 c' D1 D2). specialize (D3 c A1 A2). lia. }
  destruct (le_dec mu (1 + length (filter (fun w => (eps <=? sim v w)%Z) (adj v)))) as [Q|Q].
  - pose proof (conj Hv Q : core n adj sim mu eps v) as C. destruct (C2 v C) as (c & E & K). pose proof (U _ _ _ K (C1 v C)) as ->. rewrite E.
    assert (nth v index mx < n) by (destruct (C1 v C) as ([? _] & _); auto). split; auto. split; [split; [discriminate|lia]|]. intros _. cbn. auto.
  - assert (N : ~ core n adj sim mu eps v) by (intros [_ X]; tauto). destruct (O2 v Hv N) as [_ I]. split; [tauto|].
    destruct (nth v out []) as [|c l] eqn:E.
    + split; [|congruence]. split; auto. intros _. apply N1; auto. intros c Hc.
      assert (Cc : core n adj sim mu eps c) by apply Hc. apply (proj2 (I (nth c index mx))). exists c. auto.
    + assert (X : In (nth v index mx) (c :: l) /\ nth v index mx < n).
      { destruct (proj1 (I c) (or_introl eq_refl)) as (d & Hd & _). destruct (B1 v Hv N (ex_intro _ d Hd)) as (e & He & ->). apply Hpick in He. assert (Ce : core n adj sim mu eps e) by apply He.
        split; [apply I; exists e; auto|]. destruct (C1 e Ce) as ([? _] & _); auto. }
      destruct X as [X1 X2]. split; [split; [discriminate|lia]|auto].
Qed.
(* a self loop at 0, with the edge 0 - 1: the two closed neighbourhoods are the same two vertices, but the
   stored similarity is that of three common members, more than 1 for the actual formula *)
Theorem C71_self_loop_refuted : exists n adj, (forall u, u < n -> NoDup (adj u)) /\ (forall u v, u < n -> In v (adj u) -> v < n /\ In u (adj v)) /\
  (forall u x, u < n -> (In x (closed adj u) <-> x = 0 \/ x = 1)) /\
  forall hash_v hash_e cos adjacency similarities,
  fills_adjacency hash_v n adj adjacency -> fills_similarities hash_v hash_e cos n adj adjacency (num_directed n adj) similarities ->
  find hash_e (Some 0%Z) similarities (edge_key 0 1) (length similarities) None = Some (Some (cos 3 3 2)).
Proof.
  exists 2, (fun u => if u =? 0 then [0; 1] else [0]). split; [|split; [|split]].
  - intros [|[|u]] Hu; cbn; repeat constructor; cbn; intuition lia.
  - intros [|[|u]] v Hu; cbn; [| |lia]; intros H; repeat (destruct H as [<-|H]; [cbn; auto|]); destruct H.
  - intros [|[|u]] x Hu; cbn; intuition lia.
  - intros hash_v hash_e cos adjacency similarities Hadj (calls & Ec & Hf). set (adj := fun u => if u =? 0 then [0; 1] else [0]) in *.
    assert (E : similarity_calls hash_v cos 2 adj adjacency = Some [(edge_key 0 1, Some (cos 3 3 2))]).
    { unfold similarity_calls. cbn [seq flat_map map app adj Nat.eqb]. change (adj 0) with [0; 1]. change (adj 1) with [0]. cbn [map app].
      assert (A0 : edge_call hash_v cos adj adjacency 0 0 = Some []) by reflexivity. assert (A2 : edge_call hash_v cos adj adjacency 1 0 = Some []) by reflexivity.
      assert (A1 : edge_call hash_v cos adj adjacency 0 1 = Some [(edge_key 0 1, Some (cos 3 3 2))]).
      { unfold edge_call. change (0 <? 1) with true. cbv iota. assert (S : num_shared hash_v adj adjacency 0 1 = Some 1).
        { unfold num_shared. change (length (adj 0) <? length (adj 1)) with false. cbv iota zeta. change (adj 1) with [0]. cbn [map]. rewrite (contains_ok Hadj) by lia. reflexivity. }
        rewrite S. reflexivity. }
      rewrite A0, A1, A2. reflexivity. }
    rewrite E in Ec. injection Ec as <-.
    destruct (@fills_spec _ hash_e (Some 0%Z) (num_directed 2 adj) [(edge_key 0 1, Some (cos 3 3 2))]) with (t := similarities) (k := edge_key 0 1) (default := @None Z) as (_ & H & _); auto.
    + vm_compute. lia.
    + destruct H as (v & [Q|[]] & F); [cbn; auto|]. injection Q as <-. exact F.
Qed.

(* Example: two cliques 0 1 2 3 and 5 6 7 8, and 4 adjacent to 3 and 5 *)
Definition bridge (u : nat) : list nat := nth u [[1; 2; 3]; [0; 2; 3]; [0; 1; 3]; [0; 1; 2; 4]; [3; 5]; [4; 6; 7; 8]; [5; 7; 8]; [5; 6; 8]; [5; 6; 7]] [].
Definition order (l : list nat) : list nat := filter (fun x => existsb (Nat.eqb x) l) (seq 0 (S (list_max l))).
Lemma order_sorts_out : sorts_out order.
Proof.
  intros l. split.
  - unfold increasing, order. generalize (S (list_max l)) 0. intros k. induction k as [|k IH]; intros a; cbn; [constructor|]. destruct (existsb (Nat.eqb a) l); auto. constructor; auto.
    apply Forall_forall. intros x Hx. apply filter_In in Hx as [Hx _]. apply in_seq in Hx. lia.
  - intros x. unfold order. rewrite filter_In, in_seq, memb_In. split; [tauto|]. intros H. split; auto. assert (x <= list_max l); [|lia].
    pose proof (proj1 (list_max_le l (list_max l)) (le_n _)) as F. rewrite Forall_forall in F. auto.
Qed.
Lemma bridge_simple : simple_adj 9 bridge.
Proof.
  constructor; intros u.
  - intros Hu. do 9 (destruct u as [|u]; [cbn; repeat constructor; cbn; intuition lia|]). lia.
  - intros v Hu. do 9 (destruct u as [|u]; [cbn; intros H; repeat (destruct H as [<-|H]; [lia|]); destruct H|]). lia.
  - intros v Hu. do 9 (destruct u as [|u]; [cbn; intros H; repeat (destruct H as [<-|H]; [cbn; auto|]); destruct H|]). lia.
Qed.
(* 100 s^2 / (a b), the square of the cosine in percent *)
Definition percent (s a b : nat) : Z := Z.of_nat (100 * s * s / (a * b)).
Example C71_bridge : simple_adj 9 bridge /\ (forall a b c, percent a b c = percent a c b) /\ sorts_out order /\
  naive_cluster order (fun r i => Nat.even (r + i)) 9 bridge (fun u v => Some (26 <=? structural percent bridge u v)%Z) 4 = Some [[0]; [0]; [0]; [0]; [0; 5]; [5]; [5]; [5]; [5]].
Proof.
  split; [exact bridge_simple|]. split; [intros; unfold percent; now rewrite (Nat.mul_comm b c)|]. split; [exact order_sorts_out|]. vm_compute. reflexivity.
Qed.
Print Assumptions C71_tables.
Print Assumptions C71_similarities.
Print Assumptions C71_cluster.
Print Assumptions C71_unique.
Print Assumptions C71_agrees.
Print Assumptions C71_self_loop_refuted.
