(* Proofs about CoSimRank. *)
From Verif Require Import Base ListUtil SIModel SIProofs MOSpec MOModel MOProofs PRSpec PRModel PRProofs PRLoops CKSpec CKModel.
From Coq Require Import QArith Qcanon Lqa.
Local Open Scope nat_scope.
Unset Strict Implicit.

Ltac qcl := qclra; change (this (Q2Qc 0)) with 0%Q in *; change (this (Q2Qc 1)) with 1%Q in *; lra.

Section CoSim.
  Variable n : nat.
  Variables outs ins : nat -> list nat.
  Hypothesis Htr : transposes n outs ins.
  Notation zeros := (repeat 0%Qc n).
  Notation follow := (follow n outs).
  Notation walker := (walker n outs).

  Lemma spread_ok F p : (forall s, s < n -> nth s F false = false -> at_ p s = 0%Qc) -> spread n outs ins F p zeros = follow p.
  Proof.
    intros HF. unfold spread, CKSpec.follow. apply map_ext_in. intros d Hd. apply in_seq in Hd. rewrite at_repeat by lia.
    destruct Htr as (T1 & T2 & T3). rewrite Qcplus_0_l, qsum_filter. rewrite (@qsum_counts n) by (intros x Hx; eapply T3; eauto; lia).
    apply qsum_map_ext. intros s Hs. apply in_seq in Hs. rewrite T1 by lia. unfold Qcdiv.
    change (qn (count_occ Nat.eq_dec (outs s) d)) with (qnat (count_occ Nat.eq_dec (outs s) d)).
    destruct (nth s F false) eqn:E; [ring|]. rewrite (HF s) by (auto; lia). ring.
  Qed.
  Lemma reached_ok F p : (forall s, s < n -> nth s F false = false -> at_ p s = 0%Qc) ->
    forall d, d < n -> nth d (reached n ins F) false = false -> at_ (follow p) d = 0%Qc.
  Proof.
    intros HF d Hd E. rewrite <- (spread_ok HF). unfold spread. rewrite at_map by auto. rewrite at_repeat by auto.
    unfold reached in E. rewrite nth_map_seq in E by auto.
    replace (filter (fun s => nth s F false) (ins d)) with (@nil nat); [cbn [map qsum fold_right]; ring|].
    induction (ins d) as [|s l IH]; auto. cbn [existsb filter] in *. apply orb_false_iff in E as [E1 E2]. rewrite E1. auto.
  Qed.
  Lemma gather_ok p : transposes n outs outs -> gather n outs p = Some (follow p).
  Proof.
    intros (T1 & T2 & T3). unfold gather, CKSpec.follow.
    assert (E : forall d, In d (seq 0 n) ->
      match all_some (map (fun s => div_degree outs (at_ p s) s) (outs d)) with Some l => Some (qsum l) | None => None end =
      Some (qsum (map (fun s => at_ p s * (qnat (count_occ Nat.eq_dec (outs s) d) / qnat (length (outs s))))%Qc (seq 0 n)))).
    { intros d Hd. apply in_seq in Hd.
      assert (Hpos : forall s, In s (outs d) -> out_degree outs s =? 0 = false).
      { intros s Hs. assert (s < n) by (eapply T2; eauto; lia). apply Nat.eqb_neq. unfold out_degree. intros L. apply length_zero_iff_nil in L.
        assert (C : count_occ Nat.eq_dec (outs d) s > 0) by now apply count_occ_In.
        rewrite <- (T1 d s) in C by lia. rewrite L in C. cbn in C. lia. }
      assert (Ea : all_some (map (fun s => div_degree outs (at_ p s) s) (outs d)) = Some (map (fun s => (at_ p s / qnat (length (outs s)))%Qc) (outs d))).
      { induction (outs d) as [|s l IH]; auto. cbn [map all_some]. rewrite IH by (intros; apply Hpos; now right).
        unfold div_degree at 1. rewrite (Hpos s) by now left. reflexivity. }
      rewrite Ea. f_equal. rewrite (@qsum_counts n) by (intros x Hx; eapply T2; eauto; lia). apply qsum_map_ext. intros s Hs. apply in_seq in Hs.
      rewrite (T1 s d) by lia. unfold Qcdiv.
      change (qn (count_occ Nat.eq_dec (outs s) d)) with (qnat (count_occ Nat.eq_dec (outs s) d)). ring. }
    apply all_some_map. exact E.
  Qed.

  Variables c eps : Qc.
  Variables v u : nat.
  Hypothesis Hv : v < n.
  Hypothesis Hu : u < n.
  Notation sim := (similarity n outs c u v).
  Definition near (k : nat) : Prop := (dist n (walker v k) (walker v (S k)) < eps)%Qc /\ (dist n (walker u k) (walker u (S k)) < eps)%Qc.

  Lemma sim_S K : sim (S K) = (sim K + qpow c (S K) * inner n (walker u (S K)) (walker v (S K)))%Qc.
  Proof.
    unfold similarity. replace (S K + 1) with (S (K + 1)) by lia. rewrite seq_S, map_app, qsum_app. replace (0 + (K + 1)) with (S K) by lia. cbn [map]. rewrite qsum_cons. change (qsum []) with 0%Qc. ring.
  Qed.
  Lemma sim_0 : sim 0 = if u =? v then 1%Qc else 0%Qc.
  Proof.
    unfold similarity, inner. cbn [Nat.add seq map CKSpec.walker qpow]. unfold qsum at 1. cbn [fold_right].
    rewrite (@qsum_map_ext _ _ (fun i => if u =? i then (if u =? v then 1 else 0)%Qc else 0%Qc)).
    2:{ intros i Hi. apply in_seq in Hi. unfold start_at. rewrite !at_map by lia. rewrite (Nat.eqb_sym u i). destruct (Nat.eqb_spec i u) as [->|]; [destruct (u =? v); ring|].
        destruct (i =? v); ring. }
    rewrite (@qsum_single (fun _ => if u =? v then 1%Qc else 0%Qc) u 0 n) by lia. destruct (u =? v); ring.
  Qed.
  Lemma near_dec k : (if (if Qclt_le_dec (l1_norm n (walker v k) (walker v (S k))) eps then true else false) &&
    (if Qclt_le_dec (l1_norm n (walker u k) (walker u (S k))) eps then true else false) then near k else ~ near k).
  Proof.
    change (l1_norm n) with (dist n). unfold near. destruct (Qclt_le_dec (dist n (walker v k) _) eps) as [A|A], (Qclt_le_dec (dist n (walker u k) _) eps) as [B|B]; cbn [andb]; auto;
      intros [C D]; try (apply (Qclt_not_le _ _ C A)); apply (Qclt_not_le _ _ D B).
  Qed.

  Definition outcome (k iters : nat) (r : Qc * list Qc * list Qc) : Prop :=
    (exists j, k <= j < k + iters /\ near j /\ (forall i, k <= i < j -> ~ near i) /\ r = (sim (S j), walker v (S j), walker u (S j))) \/
    ((forall i, k <= i < k + iters -> ~ near i) /\ r = (sim (k + iters), zeros, zeros)).
  Lemma outcome_now k iters : near k -> outcome k (S iters) (sim (S k), walker v (S k), walker u (S k)).
  Proof. intros H. left. exists k. split; [lia|]. split; auto. split; auto. intros; lia. Qed.
  Lemma outcome_later k iters r : ~ near k -> outcome (S k) iters r -> outcome k (S iters) r.
  Proof.
    intros N [(j & J1 & J2 & J3 & J4)|[J1 J2]].
    - left. exists j. split; [lia|]. split; auto. split; auto. intros i Hi. destruct (Nat.eq_dec i k) as [->|]; auto. apply J3. lia.
    - right. split; [|now replace (k + S iters) with (S k + iters) by lia]. intros i Hi. destruct (Nat.eq_dec i k) as [->|]; auto. apply J1. lia.
  Qed.
  Lemma em_ok iters : forall k Fv Fu, (forall s, s < n -> nth s Fv false = false -> at_ (walker v k) s = 0%Qc) ->
    (forall s, s < n -> nth s Fu false = false -> at_ (walker u k) s = 0%Qc) ->
    outcome k iters (em_sim n outs ins c eps iters k (sim k) (walker v k) zeros (walker u k) zeros Fv Fu).
  Proof.
    induction iters as [|iters IH]; intros k Fv Fu HFv HFu; cbn [em_sim].
    { right. split; [intros; lia|]. now rewrite Nat.add_0_r. }
    rewrite (spread_ok HFv), (spread_ok HFu). change (follow (walker v k)) with (walker v (S k)). change (follow (walker u k)) with (walker u (S k)).
    replace (k + 1) with (S k) by lia. change (inner_product n) with (inner n). rewrite <- sim_S.
    pose proof (near_dec k) as N. destruct (_ && _).
    - now apply outcome_now.
    - apply outcome_later; auto. apply IH; [apply (reached_ok HFv)|apply (reached_ok HFu)].
  Qed.
  Lemma dense_ok iters : transposes n outs outs -> forall k,
    exists r, dense_sim n outs c eps iters k (sim k) (walker v k) zeros (walker u k) zeros = Some r /\ outcome k iters r.
  Proof.
    intros Hs. induction iters as [|iters IH]; intros k; cbn [dense_sim].
    { eexists. split; [reflexivity|]. right. split; [intros; lia|]. now rewrite Nat.add_0_r. }
    rewrite !gather_ok by auto. change (follow (walker v k)) with (walker v (S k)). change (follow (walker u k)) with (walker u (S k)).
    replace (k + 1) with (S k) by lia. change (inner_product n) with (inner n). rewrite <- sim_S.
    pose proof (near_dec k) as N. destruct (_ && _).
    - eexists. split; [reflexivity|]. now apply outcome_now.
    - destruct (IH (S k)) as (r & Hr & Ho). exists r. split; auto. now apply outcome_later.
  Qed.

  (* -- the rest of the sum ------------------------------------------------------------------------ *)
  Local Open Scope Qc_scope.
  Lemma one_nonneg : 0 <= 1.
  Proof. unfold Qcle. cbn. lra. Qed.
  Lemma le_plus_r (a b : Qc) : 0 <= b -> a <= a + b.
  Proof. intros. qcl. Qed.
  Lemma le_plus_l (a b x : Qc) : 0 <= a -> x <= b -> x <= a + b.
  Proof. intros. qcl. Qed.
  Lemma frac_nonneg a b : 0 <= qnat a / qnat b.
  Proof. unfold Qcdiv. replace 0 with (0 * / qnat b) by ring. apply Qcmult_le_compat_r; [apply qn_nonneg|apply inv_nonneg, qn_nonneg]. Qed.
  Lemma mul_nn x y : 0 <= x -> 0 <= y -> 0 <= x * y.
  Proof. intros. replace 0 with (0 * y) by ring. now apply Qcmult_le_compat_r. Qed.
  Lemma walker_nonneg w k d : (d < n)%nat -> 0 <= at_ (walker w k) d.
  Proof.
    revert d. induction k as [|k IH]; intros d Hd; cbn [CKSpec.walker].
    - unfold start_at. rewrite at_map by auto. destruct (d =? w)%nat; [apply one_nonneg|apply Qcle_refl].
    - unfold CKSpec.follow. rewrite at_map by auto. apply qsum_nonneg'. intros s Hs. apply in_seq in Hs. apply mul_nn; [apply IH; lia|apply frac_nonneg].
  Qed.
  Lemma walker_mass w k : (w < n)%nat -> qsum (map (at_ (walker w k)) (seq 0 n)) <= 1.
  Proof.
    intros Hw. induction k as [|k IH]; cbn [CKSpec.walker].
    - rewrite (@qsum_map_ext _ _ (fun i => if (w =? i)%nat then 1 else 0)) by (intros i Hi; apply in_seq in Hi; unfold start_at; rewrite at_map by lia; now rewrite Nat.eqb_sym).
      rewrite (@qsum_single (fun _ => 1) w 0 n) by lia. apply Qcle_refl.
    - rewrite (@qsum_map_ext _ _ (fun d => qsum (map (fun s => at_ (walker w k) s * (qnat (count_occ Nat.eq_dec (outs s) d) / qnat (length (outs s)))) (seq 0 n))))
        by (intros d Hd; apply in_seq in Hd; unfold CKSpec.follow; rewrite at_map by lia; auto).
      rewrite qsum_swap. apply Qcle_trans with (qsum (map (at_ (walker w k)) (seq 0 n))); auto. apply qsum_map_le'. intros s Hs. apply in_seq in Hs.
      rewrite qsum_scale. rewrite <- (Qcmult_1_r (at_ (walker w k) s)) at 2. rewrite !(Qcmult_comm (at_ (walker w k) s)).
      apply Qcmult_le_compat_r; [|apply walker_nonneg; lia].
      rewrite (@qsum_map_ext _ _ (fun d => / qnat (length (outs s)) * (qn (count_occ Nat.eq_dec (outs s) d) * 1))) by (intros; unfold Qcdiv, qnat, qn; ring).
      rewrite qsum_scale. rewrite <- (@qsum_counts n (fun _ => 1)) by (intros y Hy; destruct Htr as (_ & H & _); apply (H s y); auto; lia).
      rewrite <- qn_length. change (qn (length (outs s))) with (qnat (length (outs s))). destruct (outs s) as [|x l] eqn:E.
      + cbn [length]. replace (/ qnat 0 * qnat 0) with 0; [apply one_nonneg|]. change (qnat 0) with (qn 0). rewrite qn_0. ring.
      + replace (/ qnat (length (x :: l)) * qnat (length (x :: l))) with 1; [apply Qcle_refl|]. field. apply qn_nonzero. discriminate.
  Qed.
  Lemma walker_le w k d : (w < n)%nat -> (d < n)%nat -> at_ (walker w k) d <= 1.
  Proof.
    intros Hw Hd. apply Qcle_trans with (2 := @walker_mass w k Hw).
    assert (Hin : In d (seq 0 n)) by (apply in_seq; lia). assert (Hnn : forall x, In x (seq 0 n) -> 0 <= at_ (walker w k) x) by (intros x Hx; apply in_seq in Hx; apply walker_nonneg; lia).
    revert Hin Hnn. generalize (seq 0 n). induction l as [|x l IH]; intros Hin Hnn; [easy|]. cbn [map qsum fold_right].
    assert (0 <= qsum (map (at_ (walker w k)) l)) by (apply qsum_nonneg'; intros; apply Hnn; now right).
    pose proof (Hnn x (or_introl eq_refl)). destruct Hin as [->|Hin].
    - change (fold_right Qcplus 0 (map (at_ (walker w k)) l)) with (qsum (map (at_ (walker w k)) l)). now apply le_plus_r.
    - assert (at_ (walker w k) d <= qsum (map (at_ (walker w k)) l)) by (apply IH; auto; intros; apply Hnn; now right).
      change (fold_right Qcplus 0 (map (at_ (walker w k)) l)) with (qsum (map (at_ (walker w k)) l)). now apply le_plus_l.
  Qed.
  Lemma inner_bounds k : 0 <= inner n (walker u k) (walker v k) /\ inner n (walker u k) (walker v k) <= 1.
  Proof.
    split.
    - apply qsum_nonneg'. intros i Hi. apply in_seq in Hi. apply mul_nn; apply walker_nonneg; lia.
    - apply Qcle_trans with (2 := @walker_mass u k Hu). apply qsum_map_le'. intros i Hi. apply in_seq in Hi.
      rewrite <- (Qcmult_1_r (at_ (walker u k) i)) at 2. rewrite !(Qcmult_comm (at_ (walker u k) i)).
      apply Qcmult_le_compat_r; [apply walker_le; auto; lia|apply walker_nonneg; lia].
  Qed.
  Lemma qpow_nonneg x k : 0 <= x -> 0 <= qpow x k.
  Proof. intros H. induction k; cbn [qpow]; [apply one_nonneg|now apply mul_nn]. Qed.
  Lemma tail_bounds K j : 0 <= c -> c <= 1 ->
    0 <= sim (K + j) - sim K /\ (1 - c) * (sim (K + j) - sim K) <= qpow c (S K) - qpow c (S (K + j)).
  Proof.
    intros Hc Hc1. induction j as [|j [IH1 IH2]].
    - rewrite Nat.add_0_r. split; [replace (sim K - sim K) with 0 by ring; apply Qcle_refl|].
      replace ((1 - c) * (sim K - sim K)) with 0 by ring. replace (qpow c (S K) - qpow c (S K)) with 0 by ring. apply Qcle_refl.
    - replace (K + S j)%nat with (S (K + j)) by lia. rewrite sim_S. destruct (inner_bounds (S (K + j))) as [B1 B2].
      pose proof (@qpow_nonneg c (S (K + j)) Hc) as P. set (I := inner n _ _) in *. change (qpow c (S (S (K + j)))) with (c * qpow c (S (K + j))).
      set (P' := qpow c (S (K + j))) in *. set (a := sim (K + j)) in *. set (b := sim K) in *. set (p := qpow c (S K)) in *.
      assert (Q1 : 0 <= P' * I) by now apply mul_nn. assert (Q2 : 0 <= P' * (1 - I)) by (apply mul_nn; auto; clear - B2; qcl).
      assert (Q3 : 0 <= (1 - c) * (P' * (1 - I))) by (apply mul_nn; auto; clear - Hc1; qcl).
      split.
      + replace (a + P' * I - b) with ((a - b) + P' * I) by ring. clear - IH1 Q1. generalize dependent (P' * I). generalize dependent (a - b). intros x Hx y Hy. qcl.
      + replace ((1 - c) * (a + P' * I - b)) with ((1 - c) * (a - b) + ((1 - c) * P' - (1 - c) * (P' * (1 - I)))) by ring.
        replace (p - c * P') with ((p - P') + (1 - c) * P') by ring. clear - IH2 Q3.
        generalize dependent ((1 - c) * (P' * (1 - I))). generalize dependent ((1 - c) * (a - b)). intros x Hx y Hy. generalize ((1 - c) * P'). intros z. generalize dependent (p - P'). intros w Hx. qcl.
  Qed.
End CoSim.
