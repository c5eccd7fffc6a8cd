(* C87: the graph generators (utils/generators): Barabasi-Albert and R-MAT. *)
From Coq Require Import NArith QArith Permutation.
From Verif Require Import Base TUProofs GNModel GNSpec GNProofs GNRmat.
Unset Strict Implicit.
Open Scope nat_scope.

(* -- Barabasi-Albert ------------------------------------------------------------------------------------------ *)
(* The first k edges are the path 0 - 1 - ... - k; vertex i >= 1 has k edges, and their targets are endpoints of
   edges of earlier vertices, numbered by k different numbers. *)
Theorem C87_ba_attachment : forall rnd trunc n k fuel order es, (forall x, trunc x <= x) -> 1 <= n -> 1 <= k ->
  Permutation order (seq 1 (n - 1)) -> ba_generate rnd trunc n k fuel order = Done es ->
  length es = n * k /\ (forall j, j < k -> nth j es (0, 0) = (j, j + 1)) /\
  forall i, 1 <= i < n -> exists ids, length ids = k /\ NoDup ids /\ (forall x, In x ids -> x / 2 < i * k) /\
    forall j, j < k -> nth (i * k + j) es (0, 0) = (i, endpoint es (nth j ids 0)).
Proof. intros rnd trunc n k fuel order es Ht Hn Hk Hp H. exact (generate_shape Ht Hn Hk Hp H). Qed.
Print Assumptions C87_ba_attachment.

(* Every id is at most n - 1 or k, and the graph is connected on these vertices. *)
Theorem C87_ba_connected : forall rnd trunc n k fuel order es, (forall x, trunc x <= x) -> 1 <= n -> 1 <= k ->
  Permutation order (seq 1 (n - 1)) -> ba_generate rnd trunc n k fuel order = Done es ->
  (forall u v, In (u, v) es -> u <= Nat.max (n - 1) k /\ v <= Nat.max (n - 1) k) /\
  (forall u v, u <= Nat.max (n - 1) k -> v <= Nat.max (n - 1) k -> joined es u v) /\
  (forall u v, In (u, v) es -> k < u -> v < u).
Proof.
  intros rnd trunc n k fuel order es Ht Hn Hk Hp H. pose proof (generate_shape Ht Hn Hk Hp H) as S.
  split; [|split].
  - intros u v. apply (ids_bounded Hn Hk S).
  - intros u v. eapply all_joined; try eassumption; exact rnd.
  - intros u v. apply (target_earlier Hn Hk S).
Qed.
Print Assumptions C87_ba_connected.

(* With at least one vertex nothing is accessed out of bounds, in any order of the iterations; without vertices the
   path is written outside the array. *)
Theorem C87_ba_defined : forall rnd trunc n k fuel order, (forall x, trunc x <= x) -> 1 <= n -> 1 <= k -> Permutation order (seq 1 (n - 1)) ->
  ba_generate rnd trunc n k fuel order <> Undef /\ ba_generate rnd trunc n k fuel order <> Aborted.
Proof.
  intros rnd trunc n k fuel order Ht Hn Hk Hp. destruct (@generate_defined rnd trunc n k Ht Hn Hk fuel order Hp) as [E|[es E]]; rewrite E; split; discriminate.
Qed.
Print Assumptions C87_ba_defined.
Theorem C87_ba_empty_undefined : forall rnd trunc k fuel order, 1 <= k -> ba_generate rnd trunc 0 k fuel order = Undef.
Proof. intros rnd trunc [|k] fuel order H; [lia|]. reflexivity. Qed.
Print Assumptions C87_ba_empty_undefined.

(* The generator ends if the random numbers of every vertex hit every residue again and again. *)
Theorem C87_ba_ends : forall rnd trunc n k, (forall x, trunc x <= x) -> 1 <= n -> 1 <= k -> (forall x, x < 2 * n * k -> trunc x = x) ->
  (forall i p r, 1 <= i < n -> r < 2 * i * k -> exists q, p <= q /\ rnd i q mod (2 * i * k) = r) ->
  exists fuel, forall order, Permutation order (seq 1 (n - 1)) -> exists es, ba_generate rnd trunc n k fuel order = Done es.
Proof. intros rnd trunc n k Ht Hn Hk Hid Hf. exact (generate_ends Ht Hn Hk Hid Hf). Qed.
Print Assumptions C87_ba_ends.

(* The graph is not simple, and with few vertices the ids are not below n. *)
Theorem C87_ba_simple_refuted : exists rnd fuel es, ba_generate rnd (fun x => x) 3 2 fuel [1; 2] = Done es /\ In (1, 1) es /\ ~ NoDup es.
Proof.
  exists (fun i p => p + 1), 5, [(0, 1); (1, 2); (1, 1); (1, 1); (2, 1); (2, 1)]. split; [vm_compute; reflexivity|]. split; [simpl; tauto|].
  intros H. inversion H as [|? ? _ Ha]; subst. inversion Ha as [|? ? _ Hb]; subst. inversion Hb as [|? ? Hc _]; subst. apply Hc. simpl. auto.
Qed.
Print Assumptions C87_ba_simple_refuted.
Theorem C87_ba_ids_out_of_range : forall rnd trunc n k fuel order es, (forall x, trunc x <= x) -> 1 <= n -> n <= k ->
  Permutation order (seq 1 (n - 1)) -> ba_generate rnd trunc n k fuel order = Done es -> exists u v, In (u, v) es /\ n <= v.
Proof.
  intros rnd trunc n k fuel order es Ht Hn Hk Hp H. assert (Hk1 : 1 <= k) by lia. pose proof (generate_shape Ht Hn Hk1 Hp H) as (L & P & _).
  exists (k - 1), k. split; auto. specialize (P (k - 1) ltac:(lia)). replace (k - 1 + 1) with k in P by lia. rewrite <- P. apply nth_In. nia.
Qed.
Print Assumptions C87_ba_ids_out_of_range.

(* -- R-MAT --------------------------------------------------------------------------------------------------------- *)
(* Every edge has ids below the power of two 2^b that n is rounded up to.  At level l a number r is drawn; the bit
   b - 1 - l of the source is 1 iff a + b <= r, that of the target iff a <= r < a + b or a + b + c <= r. *)
Theorem C87_rmat : forall hash32 hash64 (pa pb pc : Q) h n m, (1 <= n)%N -> (n <= 2 ^ 31)%N -> (0 <= pb)%Q -> (0 <= pc)%Q -> (pa + pb + pc <= 1)%Q ->
  exists es, rmat_generate hash32 hash64 pa (pa + pb) (pa + pb + pc) h 32 n m = Done es /\ length es = m /\
  forall i, i < m -> exists x y, nth i es None = Some (x, y) /\ (x < 2 ^ N.log2_up n)%N /\ (y < 2 ^ N.log2_up n)%N /\
    forall l, l < N.to_nat (N.log2_up n) ->
      let r := hash32 (u32 (start_of hash64 h (N.of_nat i) + N.of_nat l * stride_of hash64 h (N.of_nat i)))%N in
      let bit := N.of_nat (N.to_nat (N.log2_up n) - 1 - l) in
      (N.testbit x bit = true <-> (pa + pb <= r)%Q) /\
      (N.testbit y bit = true <-> (pa <= r /\ r < pa + pb)%Q \/ (pa + pb + pc <= r)%Q).
Proof.
  intros hash32 hash64 pa pb pc h n m Hn1 Hn2 Hb Hc Habc. unfold rmat_generate.
  pose proof (log2_up_31 Hn1 Hn2) as Hk. assert (Ek : log2_up32 n = N.log2_up n) by (unfold log2_up32; destruct (N.eqb_spec n 0); [lia|auto]).
  rewrite Ek in *. destruct (N.leb_spec 32 (N.log2_up n)); [lia|].
  assert (Eq : Qlt_b 1 (pa + pb + pc) = false) by (unfold Qlt_b; apply Qle_bool_iff in Habc; now rewrite Habc). rewrite Eq.
  rewrite pow_again, N.eqb_refl. cbn [negb]. eexists. split; [reflexivity|]. rewrite map_length, seq_length. split; auto. intros i Hi.
  set (k := N.to_nat (N.log2_up n)). assert (E2 : (2 ^ N.log2_up n = 2 ^ N.of_nat k)%N) by (unfold k; now rewrite N2Nat.id). rewrite E2.
  assert (A1 : (pa <= pa + pb)%Q) by (rewrite <- (Qplus_0_r pa) at 1; apply Qplus_le_r; exact Hb).
  assert (A2 : (pa + pb <= pa + pb + pc)%Q) by (rewrite <- (Qplus_0_r (pa + pb)) at 1; apply Qplus_le_r; exact Hc).
  destruct (@rec_bits hash32 pa (pa + pb) (pa + pb + pc) A1 A2 k 32 (start_of hash64 h (N.of_nat i)) (stride_of hash64 h (N.of_nat i)))
    as (x & y & E & Hx & Hy & HB); [unfold k; lia|unfold k; lia|apply start_lt|].
  exists x, y. rewrite (@nth_mseq _ _ m i) by auto. split; [exact E|]. split; [exact Hx|]. split; [exact Hy|].
  intros l Hl. destruct (HB l Hl) as [B1 B2].
  set (r := hash32 (u32 (start_of hash64 h (N.of_nat i) + N.of_nat l * stride_of hash64 h (N.of_nat i)))%N) in *. rewrite B1, B2. unfold rowb, colb. split; [apply Qle_bool_iff|].
  rewrite Bool.orb_true_iff, Bool.andb_true_iff, !Qle_bool_iff.
  assert (N1 : negb (Qle_bool (pa + pb) r) = true <-> (r < pa + pb)%Q).
  { rewrite Bool.negb_true_iff, <- Bool.not_true_iff_false, Qle_bool_iff. split; [apply Qnot_le_lt|apply Qlt_not_le]. }
  rewrite N1. reflexivity.
Qed.
Print Assumptions C87_rmat.

(* The edges i and i + 2^31 are the same: more than 2^31 edges repeat. *)
Theorem C87_rmat_repeats : forall hash32 hash64 a ab abc h fuel nn i,
  rmat_edge hash32 hash64 a ab abc h fuel nn (i + 2 ^ 31) = rmat_edge hash32 hash64 a ab abc h fuel nn i.
Proof. intros. unfold rmat_edge. destruct (repeat_31 hash64 h i) as [-> ->]. reflexivity. Qed.
Print Assumptions C87_rmat_repeats.

(* If n is not a power of two, ids of n or more occur. *)
Theorem C87_rmat_ids_refuted : exists hash32 hash64 h es x y, rmat_generate hash32 hash64 (1 # 2) (3 # 5) (7 # 10) h 32 3 1 = Done es /\
  In (Some (x, y)) es /\ (3 <= x)%N.
Proof.
  exists (fun _ => 1%Q), (fun x => x), 1%N, [Some (3, 3)%N], 3%N, 3%N. split; [vm_compute; reflexivity|]. split; [left; reflexivity|lia].
Qed.
Print Assumptions C87_rmat_ids_refuted.

Theorem C87_rmat_undefined : forall hash32 hash64 a ab abc h fuel n m, (n = 0 \/ 2 ^ 31 < n)%N -> rmat_generate hash32 hash64 a ab abc h fuel n m = Undef.
Proof.
  intros. unfold rmat_generate. pose proof (log2_up_big H). destruct (N.leb_spec 32 (log2_up32 n)); [reflexivity|lia].
Qed.
Print Assumptions C87_rmat_undefined.
Theorem C87_rmat_aborts : forall hash32 hash64 a ab abc h fuel n m, (1 <= n)%N -> (n <= 2 ^ 31)%N -> (1 < abc)%Q ->
  rmat_generate hash32 hash64 a ab abc h fuel n m = Aborted.
Proof.
  intros hash32 hash64 a ab abc h fuel n m Hn1 Hn2 H. unfold rmat_generate. pose proof (log2_up_31 Hn1 Hn2). destruct (N.leb_spec 32 (log2_up32 n)); [lia|].
  assert (E : Qlt_b 1 abc = true); [|now rewrite E]. unfold Qlt_b. apply Bool.negb_true_iff, Bool.not_true_iff_false. rewrite Qle_bool_iff. now apply Qlt_not_le.
Qed.
Print Assumptions C87_rmat_aborts.

(* Non-vacuity *)
Example C87_ba_run : Permutation [2; 3; 1] (seq 1 (4 - 1)) /\ exists es, ba_generate (fun i p => 3 * p + i) (fun x => x) 4 2 5 [2; 3; 1] = Done es /\
  es = [(0, 1); (1, 2); (1, 1); (1, 0); (2, 1); (2, 1); (3, 2); (3, 1)].
Proof.
  split; [simpl; apply perm_trans with [2; 1; 3]; [apply perm_skip, perm_swap|apply perm_swap]|]. eexists. split; [vm_compute; reflexivity|reflexivity].
Qed.
Example C87_ba_fair : forall i p r, 1 <= i < 4 -> r < 2 * i * 2 -> exists q, p <= q /\ (fun i p : nat => p) i q mod (2 * i * 2) = r.
Proof.
  intros i p r Hi Hr. exists (r + p * (2 * i * 2)). split; [nia|]. rewrite Nat.mod_add by lia. apply Nat.mod_small. exact Hr.
Qed.
Example C87_rmat_run : exists es, rmat_generate (fun x => (inject_Z (Z.of_N (x mod 10)) / 10)%Q) (fun x => x * x + 6)%N (1 # 2) (3 # 5) (7 # 10) 3 32 8 2 = Done es /\
  es = [Some (5, 0); Some (3, 2)]%N.
Proof. eexists. split; [vm_compute; reflexivity|reflexivity]. Qed.
