(* Theorems for C39: k-core decomposition. *)
From Coq Require Import Permutation.
From Verif Require Import Base ListUtil VSModel EMModel BKModel BKSpec KCModel KCSpec KCProofs.

(* C39: on every symmetric graph, with any number of buckets and any order of the results of
   the histogram, there are at most n rounds, as long as fewer than n vertices are finished
   there is a next bucket, and so there is a result.  In every result D[v] is the coreness of v. *)
Theorem C39_kcore : forall n outn o null, 0 < o -> symmetric n outn -> (forall v, v < n -> length (outn v) < null) ->
  (exists D, kc_returns n outn o null D) /\
  (forall f D s log, kc_loop n outn o null f D s log ->
     length log <= f <= n /\
     (f <> n -> exists fuel k L s' res, next_bucket true o fuel D s = Ret (Some (k, L)) s' /\ counted (flat_map outn L) res)) /\
  (forall D, kc_returns n outn o null D -> forall v, v < n -> coreness n outn v (D v)).
Proof.
  intros n outn o null Ho Hsym Hdeg. destruct (Nat.eq_dec n 0) as [->|Hn].
  - assert (H0 : forall f D s log, kc_loop 0 outn o null f D s log -> f = 0 /\ log = []).
    { induction 1 as [|f D s log fuel k L s' res H [-> ->] Hf]; auto. congruence. }
    split; [do 3 eexists; constructor|]. split.
    + intros f D s log H. apply H0 in H as [-> ->]. simpl. split; [lia|]. congruence.
    + intros D _ v Hv. lia.
  - assert (Hp : 0 < n) by lia. split; [|split].
    + destruct (loop_runs Ho Hsym Hdeg (S n) Hp) as [(D & s & log & H)|(f & D & s & log & H & Hf & Hl)].
      * exists D, s, log. auto.
      * exfalso. destruct (loop_ki Ho Hsym Hdeg Hp H) as (D' & due & last & _ & HI). pose proof (k_len HI). pose proof (k_fin HI). lia.
    + intros f D s log H. split; [|intros Hf; eapply loop_step; eauto].
      destruct (loop_ki Ho Hsym Hdeg Hp H) as (D' & due & last & _ & HI). pose proof (k_len HI). pose proof (k_fin HI). lia.
    + intros D (s & log & H) v Hv. destruct (loop_ki Ho Hsym Hdeg Hp H) as (D' & due & last & HD & HI).
      rewrite HD. apply (k_out HI); auto. pose proof (k_fin HI) as X.
      destruct (due v) eqn:E; auto. exfalso. assert (Hin : In v (filter due (seq 0 n))) by (apply filter_In; split; auto; apply in_seq; lia).
      destruct (filter due (seq 0 n)); [destruct Hin|simpl in X; lia].
Qed.
Print Assumptions C39_kcore.

(* the order in which the vertices are taken out: it contains every vertex once, and every
   vertex has at most as many edges to later vertices as its coreness; the coreness does not
   decrease along the order *)
Theorem C39_degeneracy_order : forall n outn o null, 0 < o -> symmetric n outn -> (forall v, v < n -> length (outn v) < null) ->
  (exists order, degeneracy_returns n outn o null order) /\
  (forall order, degeneracy_returns n outn o null order ->
     Permutation order (seq 0 n) /\
     (forall l1 v l2 k, order = l1 ++ v :: l2 -> coreness n outn v k -> degree_in outn (fun w => mem w l2) v <= k) /\
     (forall l1 v l2 w k j, order = l1 ++ v :: l2 -> In w l2 -> coreness n outn v k -> coreness n outn w j -> k <= j)).
Proof.
  intros n outn o null Ho Hsym Hdeg. destruct (C39_kcore Ho Hsym Hdeg) as ((D & s & log & H) & _ & _).
  split; [exists (concat (map snd log)), D, s, log; auto|]. clear D s log H.
  intros order (D & s & log & H & ->). destruct (Nat.eq_dec n 0) as [->|Hn].
  - assert (H0 : forall f D s log, kc_loop 0 outn o null f D s log -> f = 0 /\ log = []).
    { induction 1 as [|f ? ? ? ? ? ? ? ? ? [-> ->] Hf]; auto. congruence. }
    apply H0 in H as [_ ->]. simpl. split; auto. split; intros l1 v l2; [intros k E|intros w k j E]; destruct l1; discriminate.
  - assert (Hp : 0 < n) by lia. destruct (loop_ki Ho Hsym Hdeg Hp H) as (D' & due & last & HD & HI).
    assert (Hd : forall v, In v (seq 0 n) -> due v = false).
    { intros v Hv. destruct (due v) eqn:E; auto. exfalso. pose proof (k_fin HI) as X.
      assert (Hin : In v (filter due (seq 0 n))) by (apply filter_In; auto).
      destruct (filter due (seq 0 n)); [destruct Hin|simpl in X; lia]. }
    assert (HP : Permutation (concat (map snd log)) (seq 0 n)).
    { rewrite (k_log HI), filter_all; auto. intros v Hv. now rewrite Hd. }
    split; auto. split.
    2: { assert (Hc : forall x, In x (concat (map snd log)) -> coreness n outn x (D' x)).
         { intros x Hx. eapply Permutation_in in Hx; [|exact HP]. pose proof (Hd x Hx). apply in_seq in Hx. apply (k_out HI); auto. lia. }
         assert (Hu : forall x a b, coreness n outn x a -> coreness n outn x b -> a <= b).
         { intros x a b [(A & HA & HAx) _] [_ HB]. eauto. }
         intros l1 v l2 w k j E Hw Hk Hj. pose proof (k_inc HI l1 v l2 E w Hw) as X.
         assert (Iv : In v (concat (map snd log))) by (rewrite E; apply in_or_app; right; now left).
         assert (Iw : In w (concat (map snd log))) by (rewrite E; apply in_or_app; right; now right).
         pose proof (Hu _ _ _ Hk (Hc v Iv)). pose proof (Hu _ _ _ (Hc w Iw) Hj). lia. }
    intros l1 v l2 k E [_ Hhi].
    assert (Hv : In v (seq 0 n)) by (eapply Permutation_in; [exact HP|]; rewrite E; apply in_or_app; right; now left).
    pose proof Hv as Hv'. apply in_seq in Hv'. assert (Hvn : v < n) by lia.
    destruct (k_out HI Hvn (Hd v Hv)) as [[(S & HS & HSv) _] _]. specialize (Hhi _ _ HS HSv).
    transitivity (D' v); auto. etransitivity; [|eapply (k_ord HI); exact E].
    apply filter_le_imp. intros w _ Hw. rewrite Hw. apply Bool.orb_true_r.
Qed.
Print Assumptions C39_degeneracy_order.

(* DegeneracyOrderWithLoad appends to a sequence that already has n elements: its result has
   2n elements and is never an order of the vertices *)
Theorem C39_order_with_load_refuted : forall n outn o null order, 0 < o -> 0 < n -> symmetric n outn -> (forall v, v < n -> length (outn v) < null) ->
  degeneracy_load_returns n outn o null order -> length order = 2 * n /\ ~ Permutation order (seq 0 n).
Proof.
  intros n outn o null order Ho Hn Hsym Hdeg (D & s & log & H & ->).
  destruct (C39_degeneracy_order Ho Hsym Hdeg) as [_ X]. destruct (X (concat (map snd log))) as [HP _]; [exists D, s, log; auto|].
  apply Permutation_length in HP. rewrite seq_length in HP.
  assert (E : length (repeat 0 n ++ concat (map snd log)) = 2 * n) by (rewrite app_length, repeat_length; lia).
  split; auto. intros Y. apply Permutation_length in Y. rewrite seq_length in Y. lia.
Qed.
Print Assumptions C39_order_with_load_refuted.

(* -- the fetch-and-add variant ---------------------------------------------------------------- *)
(* a path 0 - 1 - 2 - 3 and, apart from it, a clique on the twelve vertices 4 ... 15 *)
Definition fa_out (v : nat) : list nat :=
  match v with
  | 0 => [1] | 1 => [0; 2] | 2 => [1; 3] | 3 => [2]
  | _ => if v <? 16 then filter (fun u => negb (u =? v)) (seq 4 12) else []
  end.
Lemma check_lt n (P : nat -> Prop) (f : nat -> bool) : (forall v, f v = true -> P v) -> forallb f (seq 0 n) = true -> forall v, v < n -> P v.
Proof. intros H E v Hv. apply H. rewrite forallb_forall in E. apply E. apply in_seq. lia. Qed.
Lemma fa_symmetric : symmetric 16 fa_out.
Proof.
  split.
  - intros u v Hu Hv. revert u Hu v Hv.
    apply (@check_lt 16 (fun u => forall v, In v (fa_out u) -> v < 16) (fun u => forallb (fun v => v <? 16) (fa_out u))); [|vm_compute; reflexivity].
    intros u E v Hv. rewrite forallb_forall in E. now apply Nat.ltb_lt, E.
  - intros u v Hu Hv. revert u Hu.
    apply (@check_lt 16 _ (fun u => count_occ Nat.eq_dec (fa_out u) v =? count_occ Nat.eq_dec (fa_out v) u)); [intros u; apply Nat.eqb_eq|].
    revert v Hv. apply (@check_lt 16 _ (fun v => forallb (fun u => count_occ Nat.eq_dec (fa_out u) v =? count_occ Nat.eq_dec (fa_out v) u) (seq 0 16))); auto.
Qed.
Section FA_run.
  Let out_state (r : outcome) : bst := match r with Ret _ s => s | _ => {| bk := []; cur := 0; range := 0; nelm := 0 |} end.
  Let d0 := degrees 16 fa_out 100.
  Let b0 := make true 15 100 16 d0.
  Let b0' := out_state (next_bucket true 15 50 d0 b0).
  Let e1 := fst (fold_left (fa_atomic d0 1) [1; 2] (fun _ => 0, [])).
  Let b1 := b0'.
  Let b1' := out_state (next_bucket true 15 50 d0 b1).
  Let b2' := out_state (next_bucket true 15 50 d0 b1').
  Let U (L : list nat) := vs_sparse 16 (map (fun v => (v, tt)) L).
  Lemma fa_run : exists er s, fa_loop 16 fa_out 15 100 fa_out 138 16 d0 er s.
  Proof.
    assert (R0 := fa_start 16 fa_out 15 100 fa_out 138). fold d0 in R0. fold b0 in R0.
    assert (N0 : next_bucket true 15 50 d0 b0 = Ret (Some (1, [0; 3])) b0') by (vm_compute; reflexivity).
    assert (C0 : edgeMap_choice 138 None fa_out plain_flags (U [0; 3]) = Some (Sparse, U [0; 3])) by (vm_compute; reflexivity).
    assert (R1 := @fa_round 16 fa_out 15 100 fa_out 138 0 d0 (fun _ => 0) b0 50 1 [0; 3] b0' _ _ R0 ltac:(discriminate) N0
      (@fa_sparse 16 fa_out fa_out 138 d0 (fun _ => 0) 1 [0; 3] _ [1; 2] C0 (Permutation_refl _))).
    change (fa_loop 16 fa_out 15 100 fa_out 138 2 d0 e1 b1) in R1.
    assert (N1 : next_bucket true 15 50 d0 b1 = Ret (Some (2, [1; 2])) b1') by (vm_compute; reflexivity).
    assert (C1 : edgeMap_choice 138 None fa_out plain_flags (U [1; 2]) = Some (Sparse, U [1; 2])) by (vm_compute; reflexivity).
    assert (R2 := @fa_round 16 fa_out 15 100 fa_out 138 2 d0 e1 b1 50 2 [1; 2] b1' _ _ R1 ltac:(discriminate) N1
      (@fa_sparse 16 fa_out fa_out 138 d0 e1 2 [1; 2] _ [0; 2; 1; 3] C1 (Permutation_refl _))).
    change (fa_loop 16 fa_out 15 100 fa_out 138 4 d0 e1 b1') in R2.
    assert (N2 : next_bucket true 15 50 d0 b1' = Ret (Some (11, seq 4 12)) b2') by (vm_compute; reflexivity).
    assert (C2 : edgeMap_choice 138 None fa_out plain_flags (U (seq 4 12)) = Some (Pull, toDense tt (U (seq 4 12)))) by (vm_compute; reflexivity).
    assert (R3 := @fa_round 16 fa_out 15 100 fa_out 138 4 d0 e1 b1' 50 11 (seq 4 12) b2' _ _ R2 ltac:(discriminate) N2
      (@fa_pull 16 fa_out fa_out 138 d0 e1 11 (seq 4 12) _ C2)).
    exists e1, b2'. exact R3.
  Qed.
End FA_run.
(* the sparse traversal reports a vertex when it loses its second edge, so that 1 and 2, which
   lose one edge each, stay in bucket 2: the result gives them coreness 2 instead of 1 *)
Theorem C39_fetch_add_refuted : exists n outn o null m D, symmetric n outn /\ 0 < o /\ (forall v, v < n -> length (outn v) < null) /\
  fa_returns n outn o null outn m D /\ exists v, v < n /\ ~ coreness n outn v (D v).
Proof.
  exists 16, fa_out, 15, 100, 138, (degrees 16 fa_out 100). split; [apply fa_symmetric|]. split; [lia|]. split; [|split].
  - apply (@check_lt 16 _ (fun v => length (fa_out v) <? 100)); [intros v; apply Nat.ltb_lt|]. vm_compute. reflexivity.
  - exact fa_run.
  - exists 1. split; [lia|]. intros [(S & HS & H1) _]. change (degrees 16 fa_out 100 1) with 2 in HS.
    (* 1 in S needs 0 in S, which has a single edge *)
    destruct (HS 1 H1) as [_ X]. unfold degree_in in X. simpl in X. destruct (S 0) eqn:E0; [|destruct (S 2); simpl in X; lia].
    destruct (HS 0 E0) as [_ Y]. unfold degree_in in Y. simpl in Y. rewrite H1 in Y. simpl in Y. lia.
Qed.
Print Assumptions C39_fetch_add_refuted.

(* -- a run of KCore: a triangle 0 1 2 with a tail 2 - 3 - 4; two open buckets ------------------- *)
Definition kc_out (v : nat) : list nat := nth v [[1; 2]; [0; 2]; [0; 1; 3]; [2; 4]; [3]] [].
Definition out_state (r : outcome) : bst := match r with Ret _ s => s | _ => {| bk := []; cur := 0; range := 0; nelm := 0 |} end.
Definition ex_D0 := degrees 5 kc_out 9.
Definition ex_b0 := make true 2 9 5 ex_D0.
Definition ex_c0 := out_state (next_bucket true 2 20 ex_D0 ex_b0).
Definition ex_X1 := kc_applied 2 9 ex_c0 1 ex_D0 [(3, 1)].
Definition ex_b1 := update_seq (snd ex_X1) ex_c0.
Definition ex_c1 := out_state (next_bucket true 2 20 (fst ex_X1) ex_b1).
Definition ex_X2 := kc_applied 2 9 ex_c1 1 (fst ex_X1) [(2, 1); (4, 1)].
Definition ex_b2 := update_seq (snd ex_X2) ex_c1.
Definition ex_c2 := out_state (next_bucket true 2 20 (fst ex_X2) ex_b2).
Definition ex_X3 := kc_applied 2 9 ex_c2 2 (fst ex_X2) [(2, 2); (0, 2); (1, 2); (3, 1)].
Definition ex_D3 := fst ex_X3.
Lemma ex_run : (forall keys res, map fst res = nodup Nat.eq_dec keys -> forallb (fun p => snd p =? count_occ Nat.eq_dec keys (fst p)) res = true -> counted keys res) ->
  kc_loop 5 kc_out 2 9 5 ex_D3 (update_seq (snd ex_X3) ex_c2) [(1, [4]); (1, [3]); (2, [0; 1; 2])].
Proof.
  intros Hc.
  assert (R0 : kc_loop 5 kc_out 2 9 0 ex_D0 ex_b0 []) by constructor.
  assert (N0 : next_bucket true 2 20 ex_D0 ex_b0 = Ret (Some (1, [4])) ex_c0) by (vm_compute; reflexivity).
  assert (R1 : kc_loop 5 kc_out 2 9 1 (fst ex_X1) ex_b1 [(1, [4])]) by exact (kc_round 20 R0 ltac:(discriminate) N0 (Hc (flat_map kc_out [4]) [(3, 1)] eq_refl eq_refl)).
  assert (N1 : next_bucket true 2 20 (fst ex_X1) ex_b1 = Ret (Some (1, [3])) ex_c1) by (vm_compute; reflexivity).
  assert (R2 : kc_loop 5 kc_out 2 9 2 (fst ex_X2) ex_b2 [(1, [4]); (1, [3])]) by exact (kc_round 20 R1 ltac:(discriminate) N1 (Hc (flat_map kc_out [3]) [(2, 1); (4, 1)] eq_refl eq_refl)).
  assert (N2 : next_bucket true 2 20 (fst ex_X2) ex_b2 = Ret (Some (2, [0; 1; 2])) ex_c2) by (vm_compute; reflexivity).
  exact (kc_round 20 R2 ltac:(discriminate) N2 (Hc (flat_map kc_out [0; 1; 2]) [(2, 2); (0, 2); (1, 2); (3, 1)] eq_refl eq_refl)).
Qed.
Example C39_example : symmetric 5 kc_out /\ (forall v, v < 5 -> length (kc_out v) < 9) /\
  exists D, kc_returns 5 kc_out 2 9 D /\ map D (seq 0 5) = [2; 2; 2; 1; 1] /\
  degeneracy_returns 5 kc_out 2 9 [4; 3; 0; 1; 2].
Proof.
  assert (Hc : forall keys res, map fst res = nodup Nat.eq_dec keys -> forallb (fun p => snd p =? count_occ Nat.eq_dec keys (fst p)) res = true -> counted keys res).
  { intros keys res H1 H2. rewrite forallb_forall in H2. split; [rewrite H1; apply NoDup_nodup|]. intros v c. split.
    - intros H. pose proof (H2 _ H) as E. apply Nat.eqb_eq in E. simpl in E. split; auto. rewrite E. apply (count_occ_In Nat.eq_dec).
      apply (nodup_In Nat.eq_dec). rewrite <- H1. change v with (fst (v, c)). now apply in_map.
    - intros [-> H]. apply (count_occ_In Nat.eq_dec), (nodup_In Nat.eq_dec) in H. rewrite <- H1 in H. apply in_map_iff in H as ([u c] & <- & Hp).
      pose proof (H2 _ Hp) as E. apply Nat.eqb_eq in E. simpl in *. now rewrite <- E. }
  split.
  { split.
    - intros u v Hu Hv. revert u Hu v Hv.
      apply (@check_lt 5 (fun u => forall v, In v (kc_out u) -> v < 5) (fun u => forallb (fun v => v <? 5) (kc_out u))); [|vm_compute; reflexivity].
      intros u E v Hv. rewrite forallb_forall in E. now apply Nat.ltb_lt, E.
    - intros u v Hu Hv. revert u Hu.
      apply (@check_lt 5 _ (fun u => count_occ Nat.eq_dec (kc_out u) v =? count_occ Nat.eq_dec (kc_out v) u)); [intros u; apply Nat.eqb_eq|].
      revert v Hv. apply (@check_lt 5 _ (fun v => forallb (fun u => count_occ Nat.eq_dec (kc_out u) v =? count_occ Nat.eq_dec (kc_out v) u) (seq 0 5))); auto. }
  split.
  { apply (@check_lt 5 _ (fun v => length (kc_out v) <? 9)); [intros v; apply Nat.ltb_lt|]. vm_compute. reflexivity. }
  exists ex_D3. split; [do 2 eexists; exact (ex_run Hc)|]. split; [vm_compute; reflexivity|]. do 3 eexists. split; [exact (ex_run Hc)|reflexivity].
Qed.
