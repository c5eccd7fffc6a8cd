(* C74: PageRank. *)
From Verif Require Import Base ListUtil SIModel MOSpec MOModel MOProofs PRSpec PRModel PRProofs PRLoops.
From Coq Require Import QArith Qcanon.
Local Open Scope nat_scope.
Unset Strict Implicit.

(* PageRank_edgeMap, directed or not: the first iterate whose distance to the one before it is less than eps;
   all zeros if none of the first max_iters is *)
Theorem C74_edgemap n outs ins alpha eps max_iters : 0 < n -> transposes n outs ins ->
  let moved k := dist n (rank n outs alpha k) (rank n outs alpha (S k)) in
  let result := pagerank_edgemap n outs ins alpha eps max_iters in
  (forall k, k < max_iters -> (moved k < eps)%Qc -> (forall i, i < k -> (eps <= moved i)%Qc) -> result = rank n outs alpha (S k)) /\
  ((forall k, k < max_iters -> (eps <= moved k)%Qc) -> result = repeat 0%Qc n).
Proof.
  intros Hn Htr moved result. unfold result, pagerank_edgemap.
  destruct (@em_loop_ok n Hn outs ins Htr alpha eps max_iters 0) as [(j & J1 & J2 & J3 & J4)|[J1 J2]]; change (rank n outs alpha 0) with (repeat (one_over_n n) n) in *.
  - split.
    + intros k Hk M Hi. destruct (Nat.lt_trichotomy j k) as [L|[->|L]]; [|exact J4|].
      * exfalso. apply (Qclt_not_le _ _ J2). apply Hi. lia.
      * exfalso. apply (J3 k); [lia|exact M].
    + intros Hi. exfalso. apply (Qclt_not_le _ _ J2). apply Hi. lia.
  - split; [|intros _; exact J2]. intros k Hk M _. exfalso. apply (J1 k); [lia|exact M].
Qed.
Print Assumptions C74_edgemap.

(* PageRank on a graph whose edges are symmetric: the same result, and no division by zero is used *)
Theorem C74_undirected n outs alpha eps max_iters : 0 < n -> transposes n outs outs ->
  pagerank n outs alpha eps max_iters = Some (pagerank_edgemap n outs outs alpha eps max_iters).
Proof.
  intros Hn Htr. unfold pagerank, pagerank_edgemap. change (repeat (one_over_n n) n) with (rank n outs alpha 0). apply opt_loop_ok; auto. apply quotients_first; auto.
Qed.
Print Assumptions C74_undirected.

(* if eps is more than twice a power of the damping the loop ends by itself; the result is a distribution whose
   entries are at least (1 - alpha) / n, and it is within alpha / (1 - alpha) * eps of every stationary one *)
Theorem C74_converges n outs ins alpha eps max_iters K : 0 < n -> transposes n outs ins -> (0 <= alpha)%Qc -> (alpha < 1)%Qc ->
  K < max_iters -> (qpow alpha K * (1 + 1) < eps)%Qc ->
  let result := pagerank_edgemap n outs ins alpha eps max_iters in
  (exists k, k <= K /\ result = rank n outs alpha (S k)) /\
  length result = n /\ qsum (map (at_ result) (seq 0 n)) = 1%Qc /\
  (forall v, v < n -> ((1 - alpha) / qnat n <= at_ result v)%Qc) /\
  (forall pi, stationary n outs alpha pi -> ((1 - alpha) * dist n result pi <= alpha * eps)%Qc).
Proof.
  intros Hn Htr Ha0 Ha1 HK Hq result.
  assert (NK : near n outs alpha eps K).
  { unfold near. rewrite dist_sym. eapply Qcle_lt_trans; [|exact Hq]. eapply Qcle_trans; [eapply rank_close; eauto|]. rewrite !(Qcmult_comm (qpow alpha K)). apply Qcmult_le_compat_r; [eapply first_dist; eauto|].
    clear - Ha0. induction K as [|K IH]; cbn [qpow]; [now apply Qclt_le_weak|]. now apply mul_nonneg. }
  unfold result, pagerank_edgemap. change (repeat (one_over_n n) n) with (rank n outs alpha 0).
  destruct (@em_loop_ok n Hn outs ins Htr alpha eps max_iters 0) as [(j & J1 & J2 & J3 & ->)|[J1 _]]; [|exfalso; apply (J1 K); [lia|exact NK]].
  split; [exists j; split; auto; destruct (Nat.le_gt_cases j K); auto; exfalso; apply (J3 K); [lia|exact NK]|].
  split; [apply length_rank|]. split; [eapply rank_mass; eauto|]. split; [intros; eapply rank_pos; eauto|].
  intros pi Hpi. eapply Qcle_trans; [eapply stationary_near; eauto|]. rewrite !(Qcmult_comm alpha). apply Qcmult_le_compat_r; auto. rewrite dist_sym. now apply Qclt_le_weak.
Qed.
Print Assumptions C74_converges.

(* with the default arguments the loop always ends by itself, and the error is at most 17/3 * 10^-6 *)
Theorem C74_defaults n outs ins : 0 < n -> transposes n outs ins ->
  let result := pagerank_edgemap n outs ins damping_default eps_default max_iters_default in
  length result = n /\ qsum (map (at_ result) (seq 0 n)) = 1%Qc /\
  (forall v, v < n -> (Q2Qc (3 # 20) / qnat n <= at_ result v)%Qc) /\
  (forall pi, stationary n outs damping_default pi -> (dist n result pi <= Q2Qc (17 # 3000000))%Qc).
Proof.
  intros Hn Htr result. destruct (@C74_converges n outs ins damping_default eps_default max_iters_default 99 Hn Htr) as (_ & L & M & P & D).
  - vm_compute. congruence.
  - vm_compute. reflexivity.
  - apply Nat.lt_succ_diag_r.
  - vm_compute. reflexivity.
  - fold result in L, M, P, D. split; auto. split; auto. split.
    + intros v Hv. replace (Q2Qc (3 # 20)) with (1 - damping_default)%Qc by (apply Qc_is_canon; vm_compute; reflexivity). auto.
    + intros pi Hpi. specialize (D pi Hpi). replace (dist n result pi) with (Q2Qc (20 # 3) * ((1 - damping_default) * dist n result pi))%Qc.
      * replace (Q2Qc (17 # 3000000)) with (damping_default * eps_default * Q2Qc (20 # 3))%Qc by (apply Qc_is_canon; vm_compute; reflexivity). rewrite (Qcmult_comm (Q2Qc (20 # 3))). apply Qcmult_le_compat_r; auto. vm_compute. congruence.
      * rewrite Qcmult_assoc. replace (Q2Qc (20 # 3) * (1 - damping_default))%Qc with 1%Qc by (apply Qc_is_canon; vm_compute; reflexivity). ring.
Qed.
Print Assumptions C74_defaults.

(* there is at most one stationary distribution *)
Theorem C74_stationary n outs ins alpha p q : 0 < n -> transposes n outs ins -> (0 <= alpha)%Qc -> (alpha < 1)%Qc ->
  stationary n outs alpha p -> stationary n outs alpha q -> p = q.
Proof. intros. eapply stationary_unique; eauto. Qed.
Print Assumptions C74_stationary.

(* ---- witnesses *)
Definition path3 (v : nat) : list nat := match v with 0 => [1] | 1 => [0; 2] | 2 => [1] | _ => [] end.
Lemma path3_sym : transposes 3 path3 path3.
Proof.
  split; [|split].
  - intros s d Hs Hd. destruct s as [|[|[|]]], d as [|[|[|]]]; try lia; reflexivity.
  - intros s d Hs Hd. destruct s as [|[|[|]]]; cbn in Hd; lia.
  - intros s d Hs Hd. destruct d as [|[|[|]]]; cbn in Hd; lia.
Qed.
(* the stationary distribution of the path 0 - 1 - 2 *)
Definition path3_pi : list Qc := [Q2Qc (19 # 74); Q2Qc (18 # 37); Q2Qc (19 # 74)].
Lemma path3_stationary : stationary 3 path3 damping_default path3_pi.
Proof. split; [reflexivity|]. unfold surf, path3_pi. cbn [map seq]. repeat (apply f_equal2; [apply Qc_is_canon; vm_compute; reflexivity|]). reflexivity. Qed.
(* with tolerance 1/2 the second iterate is returned *)
Example C74_path : transposes 3 path3 path3 /\ stationary 3 path3 damping_default path3_pi /\
  pagerank 3 path3 damping_default (Q2Qc (1 # 2)) 100 = Some (rank 3 path3 damping_default 2).
Proof.
  split; [exact path3_sym|]. split; [exact path3_stationary|]. rewrite C74_undirected by (auto using path3_sym; lia). apply (f_equal Some).
  apply (@C74_edgemap 3 path3 path3 damping_default (Q2Qc (1 # 2)) 100); [lia|exact path3_sym|lia|vm_compute; reflexivity|]. intros [|i] Hi; [vm_compute; discriminate|lia].
Qed.
(* too few iterations: the ranks are all 0 *)
Theorem C74_few_iterations_refuted : ~ forall n outs, 0 < n -> transposes n outs outs ->
  qsum (map (at_ (pagerank_edgemap n outs outs damping_default eps_default 10)) (seq 0 n)) = 1%Qc.
Proof.
  intros H. specialize (H 3 path3 ltac:(lia) path3_sym). assert (E : pagerank_edgemap 3 path3 path3 damping_default eps_default 10 = repeat 0%Qc 3) by (vm_compute; reflexivity).
  rewrite E in H. vm_compute in H. discriminate H.
Qed.
Print Assumptions C74_few_iterations_refuted.

(* PageRank follows the edges the wrong way: on the edges 0 -> 1, 1 -> 0, 2 -> 0 it returns the uniform distribution, far from the stationary one *)
Definition back3 (v : nat) : list nat := match v with 0 => [1] | 1 => [0] | 2 => [0] | _ => [] end.
Definition back3_in (v : nat) : list nat := match v with 0 => [1; 2] | 1 => [0] | _ => [] end.
Theorem C74_directed_refuted : exists n outs ins pi, 0 < n /\ transposes n outs ins /\ stationary n outs damping_default pi /\
  forall eps max_iters, (0 < eps)%Qc -> 0 < max_iters ->
    exists r, pagerank n outs damping_default eps max_iters = Some r /\ (Q2Qc (1 # 2) < dist n r pi)%Qc.
Proof.
  exists 3, back3, back3_in, [Q2Qc (18 # 37); Q2Qc (343 # 740); Q2Qc (1 # 20)]. split; [lia|]. split; [|split; [split; [reflexivity|]|]].
  - split; [|split].
    + intros s d Hs Hd. destruct s as [|[|[|]]], d as [|[|[|]]]; try lia; reflexivity.
    + intros s d Hs Hd. destruct s as [|[|[|]]]; cbn in Hd; lia.
    + intros s d Hs Hd. destruct d as [|[|[|]]]; cbn in Hd; lia.
  - unfold surf. cbn [map seq]. repeat (apply f_equal2; [apply Qc_is_canon; vm_compute; reflexivity|]). reflexivity.
  - intros eps [|max_iters] He Hm; [lia|]. exists (repeat (one_over_n 3) 3). split; [|vm_compute; reflexivity].
    unfold pagerank. cbn [opt_loop]. destruct (opt_step 3 back3 damping_default (repeat (one_over_n 3) 3) _) as [p|] eqn:E; [|vm_compute in E; discriminate E].
    assert (Ep : p = repeat (one_over_n 3) 3).
    { assert (X : Some p = Some (repeat (one_over_n 3) 3)); [|congruence]. rewrite <- E. unfold opt_step. cbn [all_some map seq nth back3 repeat Nat.eqb out_degree length]. apply f_equal. repeat (apply f_equal2; [apply Qc_is_canon; vm_compute; reflexivity|]). reflexivity. }
    subst p. destruct (Qclt_le_dec _ eps) as [Q|Q]; auto. exfalso. apply (Qcle_not_lt _ _ Q). replace (l1_norm 3 (repeat (one_over_n 3) 3) (repeat (one_over_n 3) 3)) with 0%Qc by (apply Qc_is_canon; vm_compute; reflexivity). exact He.
Qed.
Print Assumptions C74_directed_refuted.
(* ... and on the edge 0 -> 1 alone it divides by zero and uses the result *)
Definition arc (v : nat) : list nat := match v with 0 => [1] | _ => [] end.
Definition arc_in (v : nat) : list nat := match v with 1 => [0] | _ => [] end.
Theorem C74_infinite_refuted : transposes 2 arc arc_in /\ pagerank 2 arc damping_default eps_default max_iters_default = None.
Proof.
  split; [|vm_compute; reflexivity]. split; [|split].
  - intros s d Hs Hd. destruct s as [|[|]], d as [|[|]]; try lia; reflexivity.
  - intros s d Hs Hd. destruct s as [|[|]]; cbn in Hd; lia.
  - intros s d Hs Hd. destruct d as [|[|]]; cbn in Hd; lia.
Qed.
Print Assumptions C74_infinite_refuted.

(* PageRankDelta: the changes that the first round leaves out of its frontier are lost.  On the path 0 - 1 - 2 the
   result is more than 1/10 off, however small the tolerances and whatever the number of iterations *)
Theorem C74_delta_refuted : exists n outs pi, 0 < n /\ transposes n outs outs /\ stationary n outs damping_default pi /\
  forall eps local_eps max_iters, (0 <= local_eps)%Qc ->
    exists r, pagerank_delta n outs outs damping_default eps local_eps max_iters = Some r /\ (Q2Qc (1 # 10) < dist n r pi)%Qc.
Proof.
  exists 3, path3, path3_pi. split; [lia|]. split; [exact path3_sym|]. split; [exact path3_stationary|]. intros eps local_eps max_iters Hl. unfold pagerank_delta.
  set (s0 := {| p_ := _ |}). destruct (@loop_ex 3 path3 path3 damping_default eps local_eps) with (iters := max_iters) (first := true) (s := s0) as [r Er].
  - intros u v Hu. apply path3_sym. exact Hu.
  - intros [|[|[|]]] Hv; try lia; discriminate.
  - intros [|[|[|]]] Hv; try lia; discriminate.
  - exists r. split; [exact Er|]. assert (B : r = repeat 0%Qc 3 \/ (Q2Qc (37 # 60) <= at_ r 1)%Qc).
    { destruct max_iters as [|iters]; [left; injection Er as <-; reflexivity|right]. cbn [delta_loop] in Er. destruct (ngh_sum 3 path3 s0) as [sums|] eqn:En; [|discriminate].
      assert (Es : forall i, i < 3 -> at_ sums i = nth i [Q2Qc (1 # 6); Q2Qc (2 # 3); Q2Qc (1 # 6)] 0%Qc).
      { intros i Hi. unfold ngh_sum in En. pose proof (all_some_nth 0%Qc En Hi) as X. fold (at_ sums i) in X. destruct i as [|[|[|]]]; try lia; cbn [all_some map filter path3 nth frontier delta_over_degree s0 repeat seq div_degree] in X; unfold div_degree in X; cbn [out_degree path3 length Nat.eqb all_some] in X; injection X as <-; apply Qc_is_canon; vm_compute; reflexivity. }
      assert (P : forall i, i < 3 -> at_ (p_ (first_round 3 path3 damping_default local_eps s0 sums)) i = nth i [Q2Qc (23 # 120); Q2Qc (37 # 60); Q2Qc (23 # 120)] 0%Qc).
      { intros i Hi. cbn [first_round p_]. rewrite at_map by auto. rewrite Es by auto. destruct i as [|[|[|]]]; try lia; apply Qc_is_canon; vm_compute; reflexivity. }
      assert (L : (at_ (p_ (first_round 3 path3 damping_default local_eps s0 sums)) 1 <= at_ r 1)%Qc).
      { destruct (Qclt_le_dec _ eps); [injection Er as <-; apply Qcle_refl|]. eapply loop_grows; [| |exact Er|lia]; [vm_compute; discriminate|]. apply first_grows; [exact Hl|]. intros i Hi. rewrite P by auto. destruct i as [|[|[|]]]; try lia; vm_compute; discriminate. }
      rewrite P in L by lia. exact L. }
    destruct B as [-> |B]; [vm_compute; reflexivity|]. eapply Qclt_le_trans; [|apply (@dist_at 3 1 r path3_pi); lia]. eapply Qclt_le_trans with (y := (Q2Qc (37 # 60) - Q2Qc (18 # 37))%Qc); [vm_compute; reflexivity|].
    eapply Qcle_trans; [|apply (proj1 (qabs_ge _))]. unfold Qcminus. apply Qcplus_le_compat; [exact B|apply Qcle_refl].
Qed.
Print Assumptions C74_delta_refuted.
