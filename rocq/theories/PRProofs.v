(* C74: power iteration is a contraction; the loops compute it. *)
From Verif Require Import Base ListUtil SIModel SIProofs MOSpec MOModel MOProofs PRSpec PRModel.
From Coq Require Import QArith Qcanon Lqa.
Local Open Scope nat_scope.
Unset Strict Implicit.

(* ---- order on Qc by linear arithmetic on Q *)
Lemma this_add x y : (this (x + y)%Qc == this x + this y)%Q. Proof. unfold Qcplus, Q2Qc. cbn [this]. apply Qred_correct. Qed.
Lemma this_mul x y : (this (x * y)%Qc == this x * this y)%Q. Proof. unfold Qcmult, Q2Qc. cbn [this]. apply Qred_correct. Qed.
Lemma this_opp x : (this (- x)%Qc == - this x)%Q. Proof. unfold Qcopp, Q2Qc. cbn [this]. apply Qred_correct. Qed.
Lemma this_sub x y : (this (x - y)%Qc == this x - this y)%Q. Proof. unfold Qcminus. rewrite this_add, this_opp. reflexivity. Qed.
Ltac qcpush := repeat match goal with
  | |- context [this (?x + ?y)%Qc] => setoid_rewrite (this_add x y)
  | |- context [this (?x * ?y)%Qc] => setoid_rewrite (this_mul x y)
  | |- context [this (?x - ?y)%Qc] => setoid_rewrite (this_sub x y)
  | |- context [this (- ?x)%Qc] => setoid_rewrite (this_opp x)
  end.
Ltac qclra := unfold Qcle, Qclt in *; repeat match goal with H : (_ <= _)%Q |- _ => revert H | H : (_ < _)%Q |- _ => revert H end; qcpush; intros; try lra; try nra.

Lemma qabs_nonneg x : (0 <= qabs x)%Qc.
Proof. unfold qabs. destruct (Qclt_le_dec x 0) as [H|H]; auto. change (Q2Qc 0) with 0%Qc in *. assert (E : (this 0%Qc == 0)%Q) by reflexivity. unfold Qcle, Qclt in *. rewrite this_opp. lra. Qed.
Lemma qabs_le x y : (x <= y)%Qc -> (- x <= y)%Qc -> (qabs x <= y)%Qc.
Proof. intros H1 H2. unfold qabs. destruct (Qclt_le_dec x 0); auto. Qed.
Lemma qabs_ge x : (x <= qabs x)%Qc /\ (- x <= qabs x)%Qc.
Proof.
  unfold qabs. assert (E : (this 0%Qc == 0)%Q) by reflexivity. destruct (Qclt_le_dec x 0) as [H|H]; split; try apply Qcle_refl; unfold Qcle, Qclt in *; rewrite ?this_opp; lra.
Qed.
Lemma qabs_add x y : (qabs (x + y) <= qabs x + qabs y)%Qc.
Proof.
  destruct (qabs_ge x) as [A B], (qabs_ge y) as [C D]. apply qabs_le; unfold Qcle in *; rewrite ?this_opp, ?this_add in *; lra.
Qed.
Lemma qabs_scale c x : (0 <= c)%Qc -> (qabs (c * x) <= c * qabs x)%Qc.
Proof.
  intros Hc. destruct (qabs_ge x) as [A B]. apply qabs_le.
  - rewrite !(Qcmult_comm c). now apply Qcmult_le_compat_r.
  - replace (- (c * x))%Qc with (- x * c)%Qc by ring. rewrite (Qcmult_comm c). now apply Qcmult_le_compat_r.
Qed.
Lemma qabs_0 : qabs 0 = 0%Qc.
Proof. unfold qabs. destruct (Qclt_le_dec 0 0); auto. Qed.
Lemma qabs_sum (A : Type) (f : A -> Qc) l : (qabs (qsum (map f l)) <= qsum (map (fun x => qabs (f x)) l))%Qc.
Proof.
  induction l as [|x l IH]; cbn [map]; [change (qsum []) with 0%Qc; rewrite qabs_0; apply Qcle_refl|]. rewrite !qsum_cons. eapply Qcle_trans; [apply qabs_add|]. apply Qcplus_le_compat; [apply Qcle_refl|auto].
Qed.
Lemma qsum_swap (A B : Type) (f : A -> B -> Qc) l k : qsum (map (fun a => qsum (map (fun b => f a b) k)) l) = qsum (map (fun b => qsum (map (fun a => f a b) l)) k).
Proof.
  induction l as [|a l IH]; cbn [map].
  - symmetry. apply qsum_zero. auto.
  - rewrite qsum_cons, IH. rewrite <- qsum_map_add. reflexivity.
Qed.
Lemma qsum_map_le' (A : Type) (f h : A -> Qc) l : (forall x, In x l -> (f x <= h x)%Qc) -> (qsum (map f l) <= qsum (map h l))%Qc.
Proof.
  induction l as [|x l IH]; intros H; [apply Qcle_refl|]. cbn [map]. rewrite !qsum_cons. apply Qcplus_le_compat; [apply H; now left|apply IH; intros y Hy; apply H; now right].
Qed.
Lemma qsum_nonneg' (A : Type) (f : A -> Qc) l : (forall x, In x l -> (0 <= f x)%Qc) -> (0 <= qsum (map f l))%Qc.
Proof. intros H. rewrite <- (@qsum_zero A (fun _ => 0%Qc) l) by auto. now apply qsum_map_le'. Qed.
Lemma qn_nonneg k : (0 <= qn k)%Qc.
Proof. unfold qn, Qcle, Q2Qc. cbn [this]. rewrite !Qred_correct. unfold Qle, inject_Z. cbn. lia. Qed.
Lemma qsum_const c (A : Type) (l : list A) : qsum (map (fun _ => c) l) = (c * qn (length l))%Qc.
Proof. rewrite qn_length, <- qsum_scale. apply qsum_map_ext. intros. ring. Qed.

Section PR.
  Variable n : nat.
  Hypothesis Hn : 0 < n.
  Variables outs ins : nat -> list nat.
  Hypothesis Htr : transposes n outs ins.
  Variable alpha : Qc.
  Notation prob := (prob n outs).
  Notation surf := (surf n outs alpha).
  Notation rank := (rank n outs alpha).
  Local Open Scope Qc_scope.

  Lemma qnat_n : qnat n <> 0.
  Proof. apply qn_nonzero. lia. Qed.
  Lemma prob_nonneg s d : 0 <= prob s d.
  Proof.
    unfold PRSpec.prob. destruct (outs s); [apply inv_nonneg, qn_nonneg|]. unfold Qcdiv. replace 0 with (0 * / qnat (length (n0 :: l))) by ring. apply Qcmult_le_compat_r; [apply qn_nonneg|apply inv_nonneg, qn_nonneg].
  Qed.
  Lemma count_filter (l : list nat) d : count_occ Nat.eq_dec l d = length (filter (fun x => x =? d)%nat l).
  Proof. induction l as [|x l IH]; auto. cbn [count_occ filter]. destruct (Nat.eq_dec x d) as [->|H]; [rewrite Nat.eqb_refl; cbn [length]; congruence|]. now rewrite (proj2 (Nat.eqb_neq _ _) H). Qed.
  (* a sum over a list of vertices, by vertex *)
  Lemma qsum_counts (f : nat -> Qc) l : (forall x, In x l -> (x < n)%nat) -> qsum (map f l) = qsum (map (fun s => qn (count_occ Nat.eq_dec l s) * f s) (seq 0 n)).
  Proof.
    intros H. rewrite (@qsum_by_key _ f (fun x => x) n l H). apply qsum_map_ext. intros s _. rewrite count_filter, Qcmult_comm. rewrite <- qsum_const. apply qsum_map_ext. intros x Hx. apply filter_In in Hx as [_ Hx]. apply Nat.eqb_eq in Hx. now subst.
  Qed.
  Lemma prob_sum s : (s < n)%nat -> qsum (map (prob s) (seq 0 n)) = 1.
  Proof.
    intros Hs. unfold PRSpec.prob. destruct (outs s) as [|x l] eqn:E.
    - rewrite qsum_const, seq_length. change (qn n) with (qnat n). field. apply qnat_n.
    - rewrite <- E. rewrite (@qsum_map_ext _ _ (fun d => / qnat (length (outs s)) * (qn (count_occ Nat.eq_dec (outs s) d) * 1))) by (intros; unfold Qcdiv, qnat, qn; ring).
      rewrite qsum_scale. rewrite <- (qsum_counts (fun _ => 1)) by (intros y Hy; destruct Htr as (_ & H & _); eauto). rewrite <- qn_length. change (qn (length (outs s))) with (qnat (length (outs s))). field. apply qn_nonzero. rewrite E. discriminate.
  Qed.
  Lemma at_map f i : (i < n)%nat -> at_ (map f (seq 0 n)) i = f i.
  Proof. intros. unfold at_. now apply nth_map_seq. Qed.
  Lemma at_repeat c i : (i < n)%nat -> at_ (repeat c n) i = c.
  Proof. intros H. unfold at_. destruct (nth_in_or_default i (repeat c n) 0) as [Q|Q]; [now apply repeat_spec in Q|]. rewrite (nth_indep _ 0 c) by now rewrite repeat_length. apply nth_repeat. Qed.
  Lemma length_surf p : length (surf p) = n.
  Proof. unfold PRSpec.surf. now rewrite map_length, seq_length. Qed.
  Lemma length_rank k : length (rank k) = n.
  Proof. destruct k; cbn [PRSpec.rank]; [apply repeat_length|apply length_surf]. Qed.

  (* the mass is kept *)
  Lemma surf_mass p : qsum (map (at_ p) (seq 0 n)) = 1 -> qsum (map (at_ (surf p)) (seq 0 n)) = 1.
  Proof.
    intros H. rewrite (@qsum_map_ext _ _ (fun d => alpha * qsum (map (fun s => at_ p s * prob s d) (seq 0 n)) + (1 - alpha) / qnat n)) by (intros d Hd; apply in_seq in Hd; unfold PRSpec.surf; apply at_map; lia).
    rewrite qsum_map_add, qsum_scale, qsum_const, seq_length. rewrite qsum_swap. rewrite (@qsum_map_ext _ _ (at_ p)).
    - rewrite H. change (qn n) with (qnat n). field. apply qnat_n.
    - intros s Hs. apply in_seq in Hs. rewrite qsum_scale, prob_sum by lia. ring.
  Qed.
  Lemma rank_mass k : qsum (map (at_ (rank k)) (seq 0 n)) = 1.
  Proof.
    induction k as [|k IH]; cbn [PRSpec.rank]; [|now apply surf_mass]. rewrite (@qsum_map_ext _ _ (fun _ => / qnat n)) by (intros d Hd; apply in_seq in Hd; apply at_repeat; lia).
    rewrite qsum_const, seq_length. change (qn n) with (qnat n). field. apply qnat_n.
  Qed.
  Hypothesis Ha0 : 0 <= alpha.
  Hypothesis Ha1 : alpha < 1.
  Lemma inv_n_nonneg : 0 <= / qnat n.
  Proof. apply inv_nonneg, qn_nonneg. Qed.
  Lemma mul_nonneg x y : 0 <= x -> 0 <= y -> 0 <= x * y.
  Proof. intros Hx Hy. replace 0 with (0 * y) by ring. now apply Qcmult_le_compat_r. Qed.
  Lemma sub_nonneg : 0 <= 1 - alpha.
  Proof. replace 0 with (alpha - alpha) by ring. unfold Qcminus. apply Qcplus_le_compat; [now apply Qclt_le_weak|apply Qcle_refl]. Qed.
  Lemma surf_pos p : (forall s, (s < n)%nat -> 0 <= at_ p s) -> forall d, (d < n)%nat -> (1 - alpha) / qnat n <= at_ (surf p) d.
  Proof.
    intros H d Hd. unfold PRSpec.surf. rewrite at_map by auto. replace ((1 - alpha) / qnat n) with (0 + (1 - alpha) / qnat n) at 1 by ring. apply Qcplus_le_compat; [|apply Qcle_refl].
    apply mul_nonneg; auto. apply qsum_nonneg'. intros s Hs. apply in_seq in Hs. apply mul_nonneg; [apply H; lia|apply prob_nonneg].
  Qed.
  Lemma rank_pos k d : (d < n)%nat -> (1 - alpha) / qnat n <= at_ (rank k) d.
  Proof.
    assert (Z : 0 <= (1 - alpha) / qnat n) by (apply mul_nonneg; [apply sub_nonneg|apply inv_n_nonneg]).
    revert d. induction k as [|k IH]; intros d Hd; cbn [PRSpec.rank].
    - unfold uniform. rewrite at_repeat by auto. unfold Qcdiv. replace (/ qnat n) with (1 * / qnat n) at 2 by ring. apply Qcmult_le_compat_r; [|apply inv_n_nonneg].
      replace 1 with (1 - 0) at 2 by ring. unfold Qcminus. apply Qcplus_le_compat; [apply Qcle_refl|now apply Qcopp_le_compat].
    - apply surf_pos; auto. intros s Hs. eapply Qcle_trans; [exact Z|now apply IH].
  Qed.

  (* one step brings two distributions closer *)
  Lemma contraction p q : dist n (surf p) (surf q) <= alpha * dist n p q.
  Proof.
    unfold dist. rewrite (@qsum_map_ext _ _ (fun d => qabs (alpha * qsum (map (fun s => (at_ p s - at_ q s) * prob s d) (seq 0 n))))).
    - eapply Qcle_trans; [apply qsum_map_le'; intros d _; apply qabs_scale; exact Ha0|]. rewrite qsum_scale. rewrite !(Qcmult_comm alpha). apply Qcmult_le_compat_r; auto.
      eapply Qcle_trans; [apply qsum_map_le'; intros d _; apply qabs_sum|]. rewrite qsum_swap. apply qsum_map_le'. intros s Hs. apply in_seq in Hs.
      eapply Qcle_trans; [apply qsum_map_le'; intros d _; rewrite (Qcmult_comm (at_ p s - at_ q s)); apply qabs_scale, prob_nonneg|].
      rewrite (@qsum_map_ext _ _ (fun d => qabs (at_ p s - at_ q s) * prob s d)) by (intros; ring). rewrite qsum_scale, prob_sum by lia. replace (qabs (at_ p s - at_ q s) * 1) with (qabs (at_ p s - at_ q s)) by ring. apply Qcle_refl.
    - intros d Hd. apply in_seq in Hd. unfold PRSpec.surf. rewrite !at_map by lia. f_equal.
      rewrite (@qsum_map_ext _ (fun s => (at_ p s - at_ q s) * prob s d) (fun s => at_ p s * prob s d - at_ q s * prob s d)) by (intros; ring). rewrite qsum_map_sub. ring.
  Qed.
  Lemma rank_close k : dist n (rank (S k)) (rank k) <= qpow alpha k * dist n (rank 1) (rank 0).
  Proof.
    induction k as [|k IH]; cbn [qpow]; [replace (1 * dist n (rank 1) (rank 0)) with (dist n (rank 1) (rank 0)) by ring; apply Qcle_refl|].
    change (rank (S (S k))) with (surf (rank (S k))). change (rank (S k)) with (surf (rank k)) at 2. eapply Qcle_trans; [apply contraction|].
    replace (alpha * qpow alpha k * dist n (rank 1) (rank 0)) with (qpow alpha k * dist n (rank 1) (rank 0) * alpha) by ring. rewrite (Qcmult_comm alpha). now apply Qcmult_le_compat_r.
  Qed.
  Lemma qabs_id x : 0 <= x -> qabs x = x.
  Proof. intros H. unfold qabs. destruct (Qclt_le_dec x 0) as [Q|]; auto. exfalso. apply (Qclt_not_le _ _ Q H). Qed.
  Lemma qabs_opp x : qabs (- x) = qabs x.
  Proof.
    apply Qcle_antisym; apply qabs_le; destruct (qabs_ge x), (qabs_ge (- x)); auto; replace (- - x) with x in * by ring; auto.
  Qed.
  Lemma first_dist : dist n (rank 1) (rank 0) <= 1 + 1.
  Proof.
    assert (P : forall k d, (d < n)%nat -> 0 <= at_ (rank k) d). { intros k d Hd. eapply Qcle_trans; [|now apply rank_pos]. apply mul_nonneg; [apply sub_nonneg|apply inv_n_nonneg]. }
    replace (1 + 1) with (qsum (map (at_ (rank 1)) (seq 0 n)) + qsum (map (at_ (rank 0)) (seq 0 n))) by now rewrite !rank_mass. rewrite <- qsum_map_add. apply qsum_map_le'. intros d Hd. apply in_seq in Hd.
    unfold Qcminus. eapply Qcle_trans; [apply qabs_add|]. rewrite qabs_opp. rewrite !qabs_id by (apply P; lia). apply Qcle_refl.
  Qed.
  Lemma dist_sym p q : dist n p q = dist n q p.
  Proof. apply qsum_map_ext. intros i _. rewrite <- qabs_opp. f_equal. ring. Qed.
  Lemma dist_triangle p q r : dist n p r <= dist n p q + dist n q r.
  Proof. unfold dist. rewrite <- qsum_map_add. apply qsum_map_le'. intros i _. replace (at_ p i - at_ r i) with ((at_ p i - at_ q i) + (at_ q i - at_ r i)) by ring. apply qabs_add. Qed.
  Lemma dist_nonneg p q : 0 <= dist n p q.
  Proof. apply qsum_nonneg'. intros; apply qabs_nonneg. Qed.
  (* distance to a stationary distribution *)
  Lemma stationary_near k pi : stationary n outs alpha pi -> (1 - alpha) * dist n (rank (S k)) pi <= alpha * dist n (rank (S k)) (rank k).
  Proof.
    intros [_ Hs]. pose proof (@contraction (rank k) pi) as H1. rewrite Hs in H1. pose proof (@dist_triangle (rank k) (rank (S k)) pi) as H2. rewrite (dist_sym (rank k) (rank (S k))) in H2. cbn [PRSpec.rank] in *.
    set (a := dist n (surf (rank k)) pi) in *. set (b := dist n (rank k) pi) in *. set (c := dist n (surf (rank k)) (rank k)) in *.
    assert (H3 : alpha * b <= alpha * (c + a)) by (rewrite !(Qcmult_comm alpha); now apply Qcmult_le_compat_r).
    assert (H4 : a <= alpha * (c + a)) by (eapply Qcle_trans; eauto). replace ((1 - alpha) * a) with (a + - (alpha * a)) by ring. replace (alpha * c) with (alpha * (c + a) + - (alpha * a)) by ring. apply Qcplus_le_compat; [auto|apply Qcle_refl].
  Qed.
  Lemma stationary_unique p q : stationary n outs alpha p -> stationary n outs alpha q -> p = q.
  Proof.
    intros [Lp Hp] [Lq Hq]. pose proof (@contraction p q) as C. rewrite Hp, Hq in C. pose proof (@dist_nonneg p q) as P.
    assert (Z : dist n p q = 0).
    { apply Qcle_antisym; auto. destruct (Qclt_le_dec 0 (dist n p q)) as [Q|Q]; auto. exfalso. apply (Qcle_not_lt _ _ C). replace (dist n p q) with (1 * dist n p q) at 2 by ring. now apply Qcmult_lt_compat_r. }
    apply (nth_ext _ _ 0 0); [congruence|]. intros i Hi. rewrite Lp in Hi.
    assert (X : forall l, (forall x, In x l -> 0 <= qabs (at_ p x - at_ q x)) -> qsum (map (fun i => qabs (at_ p i - at_ q i)) l) = 0 -> forall x, In x l -> qabs (at_ p x - at_ q x) = 0).
    { induction l as [|y l IH]; [intros _ _ x []|]. intros N S x Hx. cbn [map] in S. rewrite qsum_cons in S. pose proof (@qabs_nonneg (at_ p y - at_ q y)) as A. assert (B : 0 <= qsum (map (fun i => qabs (at_ p i - at_ q i)) l)) by (apply qsum_nonneg'; intros; apply qabs_nonneg).
      assert (E1 : qabs (at_ p y - at_ q y) = 0). { apply Qcle_antisym; auto. rewrite <- S. replace (qabs (at_ p y - at_ q y)) with (qabs (at_ p y - at_ q y) + 0) at 1 by ring. apply Qcplus_le_compat; [apply Qcle_refl|auto]. }
      destruct Hx as [<-|Hx]; auto. apply IH; auto; [intros; apply qabs_nonneg|]. rewrite E1 in S. rewrite <- S. ring. }
    assert (E : qabs (at_ p i - at_ q i) = 0) by (apply (X (seq 0 n)); auto; [intros; apply qabs_nonneg|apply in_seq; lia]).
    destruct (qabs_ge (at_ p i - at_ q i)) as [A B]. rewrite E in A, B. change (nth i p 0) with (at_ p i). change (nth i q 0) with (at_ q i).
    assert (D : at_ p i - at_ q i = 0). { apply Qcle_antisym; auto. replace 0 with (- 0) by ring. replace (at_ p i - at_ q i) with (- - (at_ p i - at_ q i)) by ring. now apply Qcopp_le_compat. }
    replace (at_ p i) with (at_ p i - at_ q i + at_ q i) by ring. rewrite D. ring.
  Qed.
End PR.
