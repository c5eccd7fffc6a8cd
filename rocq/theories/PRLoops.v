(* C74: what the loops of the three implementations return. *)
From Verif Require Import Base ListUtil SIModel SIProofs MOSpec MOModel MOProofs PRSpec PRModel PRProofs.
From Coq Require Import QArith Qcanon Lqa.
Local Open Scope nat_scope.
Unset Strict Implicit.

Section Loops.
  Variable n : nat.
  Hypothesis Hn : 0 < n.
  Variables outs ins : nat -> list nat.
  Hypothesis Htr : transposes n outs ins.
  Variables alpha eps : Qc.
  Notation surf := (surf n outs alpha).
  Notation rank := (rank n outs alpha).
  Notation zeros := (repeat 0%Qc n).
  Definition near (k : nat) : Prop := (dist n (rank k) (rank (S k)) < eps)%Qc.

  Lemma dangling_all (p : list Qc) : dangling_sum n outs p = qsum (map (fun s => if out_degree outs s =? 0 then at_ p s else 0%Qc) (seq 0 n)).
  Proof. unfold dangling_sum, dangling_nodes. apply qsum_filter. Qed.
  (* the sum over in-edges plus the share of the dangling vertices is one step of the walk *)
  Lemma step_sum p d (g : nat -> list nat) : d < n -> transposes n outs g ->
    (qsum (map (fun s => at_ p s / qnat (out_degree outs s)) (g d)) + dangling_sum n outs p * / qnat n)%Qc = qsum (map (fun s => (at_ p s * prob n outs s d)%Qc) (seq 0 n)).
  Proof.
    intros Hd (T1 & T2 & T3). rewrite (@qsum_counts n) by (intros x Hx; eauto). rewrite dangling_all. rewrite Qcmult_comm, <- qsum_scale, <- qsum_map_add. apply qsum_map_ext. intros s Hs. apply in_seq in Hs. rewrite T1 by lia.
    unfold prob, out_degree. destruct (outs s) as [|x l] eqn:E; cbn [length Nat.eqb].
    - cbn [count_occ]. rewrite qn_0. ring.
    - rewrite <- E. unfold Qcdiv. change (qnat (count_occ Nat.eq_dec (outs s) d)) with (qn (count_occ Nat.eq_dec (outs s) d)). ring.
  Qed.
  Lemma em_step_ok p : em_step n outs ins alpha p zeros = surf p.
  Proof.
    unfold em_step, PRSpec.surf. apply map_ext_in. intros d Hd. apply in_seq in Hd. rewrite at_map by lia. rewrite at_repeat by lia. rewrite <- (@step_sum p d ins) by (auto; lia). unfold one_over_n, added_constant, Qcdiv. ring.
  Qed.
  Lemma em_loop_ok iters : forall k,
    (exists j, k <= j < k + iters /\ near j /\ (forall i, k <= i < j -> ~ near i) /\ em_loop n outs ins alpha eps iters (rank k) zeros = rank (S j)) \/
    ((forall i, k <= i < k + iters -> ~ near i) /\ em_loop n outs ins alpha eps iters (rank k) zeros = zeros).
  Proof.
    induction iters as [|iters IH]; intros k; cbn [em_loop]; [right; split; auto; intros; lia|]. rewrite em_step_ok. change (surf (rank k)) with (rank (S k)). change (l1_norm n (rank k) (rank (S k))) with (dist n (rank k) (rank (S k))).
    destruct (Qclt_le_dec (dist n (rank k) (rank (S k))) eps) as [Q|Q].
    - left. exists k. split; [lia|]. split; auto. split; auto. intros; lia.
    - assert (Nk : ~ near k) by (unfold near; intros X; apply (Qclt_not_le _ _ X Q)). destruct (IH (S k)) as [(j & J1 & J2 & J3 & J4)|[J1 J2]].
      + left. exists j. split; [lia|]. split; auto. split; auto. intros i Hi. destruct (Nat.eq_dec i k) as [->|]; auto. apply J3. lia.
      + right. split; auto. intros i Hi. destruct (Nat.eq_dec i k) as [->|]; auto. apply J1. lia.
  Qed.

  (* the other implementation, when the out-neighbours are the in-neighbours *)
  Hypothesis Hsym : transposes n outs outs.
  Definition quotients (p : list Qc) (p_div : list (option Qc)) : Prop :=
    forall s, s < n -> out_degree outs s <> 0 -> nth s p_div None = Some (at_ p s / qnat (out_degree outs s))%Qc.
  Lemma opt_step_ok p p_div : quotients p p_div -> opt_step n outs alpha p p_div = Some (surf p).
  Proof.
    intros Hq. unfold opt_step, PRSpec.surf. apply all_some_map. intros u Hu. apply in_seq in Hu.
    assert (E : all_some (map (fun s => nth s p_div None) (outs u)) = Some (map (fun s => at_ p s / qnat (out_degree outs s))%Qc (outs u))).
    { apply all_some_map. intros s Hs. destruct Hsym as (T1 & T2 & T3). assert (s < n) by (eapply T2; [|exact Hs]; lia). apply Hq; auto. unfold out_degree.
      assert (C : count_occ Nat.eq_dec (outs u) s > 0) by now apply count_occ_In. rewrite T1 in C by lia. destruct (outs s); [cbn in C; lia|discriminate]. }
    rewrite E. f_equal. rewrite <- (@step_sum p u outs) by (auto; lia). unfold one_over_n, added_constant, Qcdiv. ring.
  Qed.
  Lemma quotients_next p : quotients p (map (fun u => div_degree outs (at_ p u) u) (seq 0 n)).
  Proof. intros s Hs Hd. rewrite nth_map_seq by auto. unfold div_degree. destruct (Nat.eqb_spec (out_degree outs s) 0); [tauto|auto]. Qed.
  Lemma quotients_first : quotients (rank 0) (map (fun i => Some (one_over_n n / qnat (max 1 (out_degree outs i)))%Qc) (seq 0 n)).
  Proof.
    intros s Hs Hd. rewrite nth_map_seq by auto. cbn [PRSpec.rank]. unfold uniform. rewrite at_repeat by auto. replace (max 1 (out_degree outs s)) with (out_degree outs s) by lia. reflexivity.
  Qed.
  Lemma opt_loop_ok iters : forall k p_div, quotients (rank k) p_div -> opt_loop n outs alpha eps iters (rank k) zeros p_div = Some (em_loop n outs ins alpha eps iters (rank k) zeros).
  Proof.
    induction iters as [|iters IH]; intros k p_div Hq; cbn [opt_loop em_loop]; auto. rewrite (opt_step_ok Hq). rewrite em_step_ok. change (surf (rank k)) with (rank (S k)). destruct (Qclt_le_dec _ eps); auto. apply IH. apply quotients_next.
  Qed.
End Loops.

Lemma dist_at n i p q : i < n -> (qabs (at_ p i - at_ q i) <= dist n p q)%Qc.
Proof.
  intros Hi. unfold dist. rewrite <- (@qsum_single (fun j => qabs (at_ p j - at_ q j)%Qc) i 0 n) by lia. apply qsum_map_le'. intros j _. destruct (i =? j) eqn:E; [apply Qcle_refl|apply qabs_nonneg].
Qed.
(* ---- PageRankDelta: once the first round has dropped the negative changes, the ranks only grow *)
Section Delta.
  Variable n : nat.
  Variables outs ins : nat -> list nat.
  Variables alpha eps local_eps : Qc.
  Hypothesis Ha0 : (0 <= alpha)%Qc.
  Notation loop := (delta_loop n outs ins alpha eps local_eps).
  Definition grows (s : dst) : Prop :=
    forall v, nth v (frontier s) false = true -> v < n /\ forall q, nth v (delta_over_degree s) None = Some q -> (0 <= q)%Qc.
  Lemma all_some_in (A : Type) (l : list (option A)) r x : all_some l = Some r -> In x r -> In (Some x) l.
  Proof.
    revert r. induction l as [|[a|] l IH]; intros r E; cbn [all_some] in E; try discriminate; [injection E as <-; intros []|]. destruct (all_some l) as [r'|]; [|discriminate]. injection E as <-. intros [->|H]; [now left|right; eauto].
  Qed.
  Lemma all_some_nth (A : Type) (f : nat -> option A) k r i d : all_some (map f (seq 0 k)) = Some r -> i < k -> f i = Some (nth i r d).
  Proof.
    intros E Hi. assert (X : forall l r, all_some l = Some r -> forall i, i < length l -> nth_error l i = Some (Some (nth i r d))).
    { clear. induction l as [|[a|] l IH]; intros r E i Hi; cbn [all_some] in E; try discriminate; [cbn in Hi; lia|]. destruct (all_some l) as [r'|]; [|discriminate]. injection E as <-. destruct i; cbn; auto. apply IH; auto. cbn in Hi. lia. }
    specialize (X _ _ E i). rewrite map_length, seq_length in X. specialize (X Hi). rewrite nth_error_map in X. rewrite (nth_error_nth' _ 0) in X by now rewrite seq_length. rewrite seq_nth in X by auto. cbn in X. congruence.
  Qed.
  Lemma sums_nonneg s sums : grows s -> ngh_sum n ins s = Some sums -> forall i, i < n -> (0 <= at_ sums i)%Qc.
  Proof.
    intros G E i Hi. unfold ngh_sum in E. pose proof (all_some_nth 0%Qc E Hi) as X. cbn beta in X. fold (at_ sums i) in X. destruct (all_some (map _ (filter _ (ins i)))) as [l|] eqn:El; [|discriminate]. injection X as <-.
    rewrite <- (map_id l). apply qsum_nonneg'. intros q Hq. pose proof (all_some_in El Hq) as Hq'. apply in_map_iff in Hq' as (v & Ev & Hv). apply filter_In in Hv as [_ Hv]. apply (proj2 (G v Hv)). auto.
  Qed.
  Lemma quotient_nonneg x v q : (0 <= x)%Qc -> div_degree outs x v = Some q -> (0 <= q)%Qc.
  Proof. intros Hx. unfold div_degree. destruct (_ =? 0); [discriminate|]. intros E. injection E as <-. apply mul_nonneg; auto. apply inv_nonneg, qn_nonneg. Qed.
  Lemma later_grows s sums : (forall i, i < n -> (0 <= at_ sums i)%Qc) -> grows (later_round n outs alpha local_eps s sums) /\
    forall i, i < n -> (at_ (p_ s) i <= at_ (p_ (later_round n outs alpha local_eps s sums)) i)%Qc.
  Proof.
    intros Hs. assert (D : forall i, i < n -> (0 <= at_ sums i * alpha)%Qc) by (intros; apply mul_nonneg; auto). split.
    - intros v Hv. cbn [later_round frontier] in Hv. assert (Hvn : v < n) by (destruct (Nat.lt_ge_cases v n); auto; rewrite nth_overflow in Hv by (rewrite map_length, seq_length; auto); discriminate).
      split; auto. intros q. cbn [later_round delta_over_degree]. rewrite nth_map_seq by auto. apply quotient_nonneg. rewrite at_map by auto. auto.
    - intros i Hi. cbn [later_round p_]. rewrite !at_map by auto. destruct (Qclt_le_dec _ _); [|apply Qcle_refl]. replace (at_ (p_ s) i) with (at_ (p_ s) i + 0)%Qc at 1 by ring. apply Qcplus_le_compat; [apply Qcle_refl|auto].
  Qed.
  Lemma loop_grows iters : forall s r, grows s -> loop iters false s = Some r -> forall i, i < n -> (at_ (p_ s) i <= at_ r i)%Qc.
  Proof.
    induction iters as [|iters IH]; intros s r G E i Hi; cbn [delta_loop] in E; [injection E as <-; apply Qcle_refl|]. destruct (ngh_sum n ins s) as [sums|] eqn:En; [|discriminate].
    destruct (@later_grows s sums (sums_nonneg G En)) as [G' L]. destruct (Qclt_le_dec _ eps); [injection E as <-; now apply L|]. eapply Qcle_trans; [now apply L|]. now apply (IH _ _ G' E).
  Qed.
  Lemma first_grows s sums : (0 <= local_eps)%Qc -> (forall i, i < n -> (0 <= at_ (p_ (first_round n outs alpha local_eps s sums)) i)%Qc) -> grows (first_round n outs alpha local_eps s sums).
  Proof.
    intros Hl Hp v Hv. assert (Hvn : v < n) by (destruct (Nat.lt_ge_cases v n); auto; cbn [first_round frontier] in Hv; rewrite nth_overflow in Hv by (rewrite map_length, seq_length; auto); discriminate).
    specialize (Hp v Hvn). cbn [first_round frontier p_] in *. rewrite nth_map_seq in Hv by auto. destruct (Qclt_le_dec _ _) as [Q|]; [|discriminate]. split; auto. intros q. cbn [first_round delta_over_degree]. rewrite nth_map_seq by auto. apply quotient_nonneg.
    apply Qclt_le_weak. eapply Qcle_lt_trans; [|exact Q]. apply mul_nonneg; auto.
  Qed.
  (* no read of a division by zero *)
  Hypothesis Hins : forall u v, u < n -> In v (ins u) -> v < n.
  Hypothesis Hdeg : forall v, v < n -> outs v <> [].
  Definition finite (s : dst) : Prop := forall v, v < n -> nth v (delta_over_degree s) None <> None.
  Lemma all_some_ex (A : Type) (l : list (option A)) : (forall x, In x l -> x <> None) -> exists r, all_some l = Some r.
  Proof.
    induction l as [|[a|] l IH]; intros H; cbn [all_some]; [eauto| |exfalso; apply (H None); [now left|auto]]. destruct IH as [r ->]; [intros; apply H; now right|eauto].
  Qed.
  Lemma finite_quotients (f : nat -> Qc) v : v < n -> nth v (map (fun i => div_degree outs (f i) i) (seq 0 n)) None <> None.
  Proof. intros Hv. rewrite nth_map_seq by auto. unfold div_degree, out_degree. specialize (Hdeg Hv). destruct (outs v); [congruence|discriminate]. Qed.
  Lemma ngh_sum_ex s : finite s -> exists sums, ngh_sum n ins s = Some sums.
  Proof.
    intros F. unfold ngh_sum. apply all_some_ex. intros x Hx. apply in_map_iff in Hx as (u & <- & Hu). apply in_seq in Hu.
    destruct (@all_some_ex Qc (map (fun v => nth v (delta_over_degree s) None) (filter (fun v => nth v (frontier s) false) (ins u)))) as [l ->]; [|discriminate].
    intros y Hy. apply in_map_iff in Hy as (v & <- & Hv). apply filter_In in Hv as [Hv _]. apply F. eapply Hins; [|exact Hv]. lia.
  Qed.
  Lemma loop_ex iters : forall first s, finite s -> exists r, loop iters first s = Some r.
  Proof.
    induction iters as [|iters IH]; intros first s F; cbn [delta_loop]; [eauto|]. destruct (ngh_sum_ex F) as [sums ->]. destruct (Qclt_le_dec _ eps); [eauto|]. apply IH. intros v Hv. destruct first; cbn [first_round later_round delta_over_degree]; now apply finite_quotients.
  Qed.
End Delta.
