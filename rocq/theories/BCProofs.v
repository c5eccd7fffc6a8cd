(* Proofs for C59: the values the two passes compute. *)
From Coq Require Import ZArith QArith Qcanon Permutation.
From Verif Require Import Base ListUtil BKSpec BKProofs FASpec FAProofs EMSpec BCModel BCSpec BCWalks.
Local Open Scope nat_scope.

(* -- rationals ------------------------------------------------------------------------------- *)
Lemma qc_0 : qc 0 = 0%Qc. Proof. reflexivity. Qed.
Lemma qc_1 : qc 1 = 1%Qc. Proof. reflexivity. Qed.
Lemma qc_add a b : qc (a + b) = (qc a + qc b)%Qc.
Proof.
  unfold qc. apply Qc_is_canon. unfold Qcplus, Q2Qc. cbn [this]. rewrite !Qred_correct. rewrite Nat2Z.inj_add, inject_Z_plus. reflexivity.
Qed.
Lemma qc_mul a b : qc (a * b) = (qc a * qc b)%Qc.
Proof.
  unfold qc. apply Qc_is_canon. unfold Qcmult, Q2Qc. cbn [this]. rewrite !Qred_correct. rewrite Nat2Z.inj_mul, inject_Z_mult. reflexivity.
Qed.
Lemma qc_pos k : 0 < k -> (0 < qc k)%Qc.
Proof.
  intros H. unfold qc, Qclt, Q2Qc. cbn [this]. rewrite !Qred_correct. unfold Qlt, inject_Z. simpl. lia.
Qed.
Lemma Qc_neq x : (0 < x)%Qc -> x <> 0%Qc.
Proof. intros H ->. now apply Qclt_not_eq in H. Qed.
Lemma Qc_nn_add x y : (0 <= x)%Qc -> (0 <= y)%Qc -> (0 <= x + y)%Qc.
Proof. intros H1 H2. replace 0%Qc with (0 + 0)%Qc by ring. now apply Qcplus_le_compat. Qed.
Lemma Qc_pos_add x y : (0 <= x)%Qc -> (0 < y)%Qc -> (0 < x + y)%Qc.
Proof.
  intros H1 H2. destruct (Qcle_lt_or_eq 0 (x + y)) as [H|H]; auto.
  - apply Qc_nn_add; auto. now apply Qclt_le_weak.
  - exfalso. assert (E : y = (- x)%Qc) by (transitivity (x + y - x)%Qc; [ring|rewrite <- H; ring]). subst y.
    apply Qclt_not_le in H2. apply H2. replace 0%Qc with (-0)%Qc by ring. now apply Qcopp_le_compat.
Qed.
Lemma qsum_perm l1 l2 : Permutation l1 l2 -> qsum l1 = qsum l2.
Proof. intros H. induction H; simpl; auto; [now rewrite IHPermutation|ring|congruence]. Qed.
Lemma qsum_app l1 l2 : qsum (l1 ++ l2) = (qsum l1 + qsum l2)%Qc.
Proof. induction l1; simpl; [ring|]. rewrite IHl1. ring. Qed.
Lemma qsum_add {A} (f g : A -> Qc) l : qsum (map (fun x => f x + g x)%Qc l) = (qsum (map f l) + qsum (map g l))%Qc.
Proof. induction l; simpl; [ring|]. rewrite IHl. ring. Qed.
Lemma qsum_mul {A} (f : A -> Qc) c l : qsum (map (fun x => c * f x)%Qc l) = (c * qsum (map f l))%Qc.
Proof. induction l; simpl; [ring|]. rewrite IHl. ring. Qed.
Lemma qsum_0 {A} (f : A -> Qc) l : (forall x, In x l -> f x = 0%Qc) -> qsum (map f l) = 0%Qc.
Proof. induction l; simpl; intros H; auto. rewrite H, IHl; auto. Qed.
Lemma qsum_exch {A B} (f : A -> B -> Qc) l1 l2 :
  qsum (map (fun x => qsum (map (f x) l2)) l1) = qsum (map (fun y => qsum (map (fun x => f x y) l1)) l2).
Proof.
  induction l1; simpl.
  - symmetry. apply qsum_0. auto.
  - rewrite IHl1, <- qsum_add. reflexivity.
Qed.
Lemma qsum_one (f : nat -> Qc) u l : NoDup l -> In u l -> (forall x, In x l -> x <> u -> f x = 0%Qc) -> qsum (map f l) = f u.
Proof.
  intros ND Hin H. induction ND as [|a l Ha ND IH]; [destruct Hin|]. simpl. destruct Hin as [->|Hin].
  - rewrite qsum_0; [ring|]. intros x Hx. apply H; [now right|]. intros ->. auto.
  - rewrite IH; auto; [|intros; apply H; auto; now right]. rewrite (H a); [ring|now left|]. intros ->. auto.
Qed.
Lemma qsum_nn {A} (f : A -> Qc) l : (forall x, In x l -> (0 <= f x)%Qc) -> (0 <= qsum (map f l))%Qc.
Proof. induction l; simpl; intros H; [apply Qcle_refl|]. apply Qc_nn_add; auto. Qed.
Lemma qsum_filter {A} (f : A -> Qc) (b : A -> bool) l : (forall x, In x l -> b x = false -> f x = 0%Qc) ->
  qsum (map f (filter b l)) = qsum (map f l).
Proof.
  induction l as [|a l IH]; simpl; intros H; auto. destruct (b a) eqn:E; simpl; rewrite IH; auto. rewrite (H a); auto. ring.
Qed.
Lemma qc_sum {A} (f : A -> nat) l : qc (list_sum (map f l)) = qsum (map (fun x => qc (f x)) l).
Proof. induction l; simpl; auto. rewrite qc_add, IHl. auto. Qed.
Lemma sum_count (f : nat -> nat) n l : (forall x, In x l -> x < n) ->
  list_sum (map f l) = list_sum (map (fun x => count_occ Nat.eq_dec l x * f x) (seq 0 n)).
Proof.
  induction l as [|a l IH]; intros H; [symmetry; now apply sum_0|].
  rewrite (map_ext (fun x => count_occ Nat.eq_dec (a :: l) x * f x) (fun x => (if Nat.eq_dec a x then f x else 0) + count_occ Nat.eq_dec l x * f x)) by (intros x; simpl; destruct (Nat.eq_dec a x); simpl; lia).
  simpl. rewrite IH by (intros; apply H; now right).
  rewrite sum_add. f_equal. rewrite (@sum_one _ a); [destruct (Nat.eq_dec a a); congruence|apply seq_NoDup|apply in_seq; specialize (H a (or_introl eq_refl)); lia|].
  intros x _ Hx. destruct (Nat.eq_dec a x); congruence.
Qed.

(* -- the values ------------------------------------------------------------------------------- *)
Section Values.
  Variable n : nat.
  Variable outn inn : nat -> list nat.
  Hypothesis HR : reversed n outn inn.
  Variable src : nat.
  Hypothesis Hsrc : src < n.
  Notation lev := (level n outn src).
  Definition at_level (k s : nat) : bool := match lev s with Some j => j =? k | None => false end.
  Definition sig (v : nat) : nat := match lev v with Some k => W outn k src v | None => 0 end.
  Lemma Hout u v : u < n -> In v (outn u) -> v < n. Proof. apply HR. Qed.
  Lemma lev_dist v k : lev v = Some k <-> dist outn src v k.
  Proof. apply (level_dist _ Hout); auto. Qed.
  Lemma lev_lt v k : lev v = Some k -> v < n.
  Proof. intros H. apply lev_dist in H as [H _]. eapply wlt; eauto. exact Hout. Qed.
  Lemma lev_edge u v i : In v (outn u) -> lev u = Some i -> exists j, lev v = Some j /\ j <= S i.
  Proof.
    intros Hin Hu. apply lev_dist in Hu as [Hw _]. assert (Hv : walk outn src (S i) v) by (econstructor; eauto).
    destruct (@dist_ex outn src v (ex_intro _ _ Hv)) as [j Hj]. exists j. split; [now apply lev_dist|].
    destruct (Nat.le_gt_cases j (S i)); auto. exfalso. now apply (proj2 Hj (S i)).
  Qed.
  Lemma lev_walk v j k : walk outn src k v -> lev v = Some j -> j <= k.
  Proof. intros H Hl. apply lev_dist in Hl as [_ Hm]. destruct (Nat.le_gt_cases j k); auto. exfalso. now apply (Hm k). Qed.
  Lemma sig_pos v k : lev v = Some k -> 0 < sig v.
  Proof. intros H. unfold sig. rewrite H. apply lev_dist in H as [H _]. now apply W_walk. Qed.
  Lemma sig_step v k : lev v = Some (S k) -> qc (sig v) = qsum (map (fun s => qc (sig s)) (filter (at_level k) (inn v))).
  Proof.
    intros H. pose proof (lev_lt _ H) as Hv. rewrite <- (qc_sum sig). f_equal. unfold sig at 1. rewrite H.
    rewrite (W_last _ Hout) by auto.
    assert (Hf : forall l, list_sum (map sig (filter (at_level k) l)) = list_sum (map (fun s => if at_level k s then sig s else 0) l)).
    { induction l; simpl; auto. destruct (at_level k a); simpl; rewrite IHl; auto. }
    rewrite Hf, (@sum_count _ n (inn v)) by (intros x Hx; destruct HR as (_ & X & _); exact (X x v Hv Hx)). f_equal. apply map_ext_in. intros x Hx. apply in_seq in Hx.
    destruct HR as (_ & _ & HC). rewrite <- HC by lia. destruct (count_occ Nat.eq_dec (outn x) v) eqn:Ec; [lia|].
    assert (Hin : In v (outn x)) by (apply (count_occ_In Nat.eq_dec); lia). rewrite Nat.mul_comm. f_equal. unfold at_level, sig.
    destruct (lev x) as [j|] eqn:El.
    - destruct (lev_edge _ _ Hin El) as (j' & E' & Hj'). rewrite H in E'. injection E' as <-. destruct (Nat.eqb_spec j k) as [->|Hne]; auto.
      apply W_none. intros Hw. pose proof (lev_walk Hw El). lia.
    - apply W_none. intros Hw. apply (level_none _ Hout) in El; auto. apply El. now exists k.
  Qed.

  Definition g (v t : nat) : Qc :=
    match lev v, lev t with Some i, Some k => if i <=? k then (qc (W outn (k - i) v t) / qc (sig t))%Qc else 0%Qc | _, _ => 0%Qc end.
  Definition dep (v : nat) : Qc := qsum (map (g v) (seq 0 n)).
  Lemma div0 x : (qc 0 / x)%Qc = 0%Qc.
  Proof. rewrite qc_0. unfold Qcdiv. ring. Qed.
  Lemma g_step v t i : lev v = Some i ->
    g v t = ((if Nat.eq_dec t v then / qc (sig v) else 0) + qsum (map (fun w => g w t) (filter (at_level (S i)) (outn v))))%Qc.
  Proof.
    intros Hv. unfold g at 1. rewrite Hv. destruct (lev t) as [k|] eqn:Ht.
    2: { destruct (Nat.eq_dec t v); [congruence|]. rewrite qsum_0; [ring|]. intros w _. unfold g. rewrite Ht. now destruct (lev w). }
    destruct (Nat.leb_spec i k) as [Hik|Hik].
    - destruct (Nat.eq_dec i k) as [->|Hne].
      + rewrite qsum_0.
        * rewrite Nat.sub_diag, W_0. destruct (Nat.eq_dec t v) as [->|Hd].
          -- rewrite Nat.eqb_refl, qc_1. unfold Qcdiv. ring.
          -- destruct (Nat.eqb_spec v t); [congruence|]. rewrite div0. ring.
        * intros w Hw. apply filter_In in Hw as [_ Hw]. unfold at_level in Hw. unfold g. destruct (lev w) as [j|]; [|discriminate]. apply Nat.eqb_eq in Hw. subst j.
          rewrite Ht. destruct (Nat.leb_spec (S k) k); [lia|auto].
      + destruct (Nat.eq_dec t v) as [->|_]; [congruence|]. replace (k - i) with (S (k - S i)) by lia. rewrite W_S, qc_sum.
        unfold Qcdiv. rewrite Qcmult_comm, <- qsum_mul. rewrite Qcplus_0_l. rewrite <- (@qsum_filter _ _ (at_level (S i))).
        * f_equal. apply map_ext_in. intros w Hw. apply filter_In in Hw as [_ Hw]. unfold at_level in Hw. unfold g. destruct (lev w) as [j|]; [|discriminate]. apply Nat.eqb_eq in Hw. subst j.
          rewrite Ht. destruct (Nat.leb_spec (S i) k); [|lia]. unfold Qcdiv. apply Qcmult_comm.
        * intros w Hw Hl. rewrite W_none; [rewrite qc_0; ring|]. intros Hwalk. destruct (lev_edge _ _ Hw Hv) as (j & Ej & Hj). unfold at_level in Hl. rewrite Ej in Hl.
          apply Nat.eqb_neq in Hl. assert (Hw2 : walk outn src (j + (k - S i)) t) by (apply lev_dist in Ej as [Ej _]; eapply walk_app; eauto).
          pose proof (lev_walk Hw2 Ht). lia.
    - destruct (Nat.eq_dec t v) as [->|Hd]; [rewrite Hv in Ht; injection Ht as ->; lia|]. rewrite qsum_0; [ring|].
      intros w Hw. apply filter_In in Hw as [_ Hw]. unfold at_level in Hw. unfold g. destruct (lev w) as [j|]; [|discriminate]. apply Nat.eqb_eq in Hw. subst j.
      rewrite Ht. destruct (Nat.leb_spec (S i) k); [lia|auto].
  Qed.
  Lemma dep_step v i : lev v = Some i -> dep v = (/ qc (sig v) + qsum (map dep (filter (at_level (S i)) (outn v))))%Qc.
  Proof.
    intros Hv. unfold dep at 1. rewrite (map_ext _ (fun t => (if Nat.eq_dec t v then / qc (sig v) else 0) + qsum (map (fun w => g w t) (filter (at_level (S i)) (outn v))))%Qc) by (intros; now apply g_step).
    rewrite qsum_add. f_equal.
    - rewrite (@qsum_one _ v); [destruct (Nat.eq_dec v v); congruence|apply seq_NoDup|apply in_seq; pose proof (lev_lt _ Hv); lia|].
      intros x _ Hx. destruct (Nat.eq_dec x v); congruence.
    - rewrite qsum_exch. reflexivity.
  Qed.
  Lemma part_g v t i : lev v = Some i -> part_through n outn src v t = (qc (sig v) * g v t)%Qc.
  Proof.
    intros Hv. unfold part_through, g. rewrite Hv. destruct (lev t) as [k|] eqn:Ht.
    - pose proof Ht as Ht'. pose proof Hv as Hv'. apply lev_dist in Ht'. apply lev_dist in Hv'. rewrite (through_count Hout Hsrc Hv' Ht'), (total_count Hout Hsrc Ht').
      assert (E : sig t = W outn k src t) by (unfold sig; now rewrite Ht). assert (E2 : sig v = W outn i src v) by (unfold sig; now rewrite Hv). rewrite <- E, <- E2.
      destruct (i <=? k); [rewrite qc_mul; unfold Qcdiv; ring|rewrite div0; ring].
    - unfold shortest_walks. rewrite Ht. simpl. rewrite div0. ring.
  Qed.
  Lemma dep_final v i : lev v = Some i -> (dep v * qc (sig v) - 1 = dependency n outn src v)%Qc.
  Proof.
    intros Hv. pose proof (lev_lt _ Hv) as Hn. pose proof (sig_pos _ Hv) as Hp. unfold dependency.
    rewrite (map_ext _ (fun t => qc (sig v) * g v t)%Qc) by (intros; now apply part_g with i). rewrite qsum_mul. unfold dep.
    assert (E : qsum (map (g v) (seq 0 n)) = (g v v + qsum (map (g v) (filter (fun t => negb (t =? v)) (seq 0 n))))%Qc).
    { assert (X : forall l, NoDup l -> In v l -> qsum (map (g v) l) = (g v v + qsum (map (g v) (filter (fun t => negb (t =? v)) l)))%Qc).
      { clear. intros l ND Hin. induction ND as [|a l Ha ND IH]; [destruct Hin|]. simpl. destruct (Nat.eqb_spec a v) as [->|Hne]; simpl.
        - f_equal. rewrite filter_all; auto. intros x Hx. apply Bool.negb_true_iff, Nat.eqb_neq. intros ->. auto.
        - destruct Hin as [|Hin]; [congruence|]. rewrite IH; auto. ring. }
      apply X; [apply seq_NoDup|apply in_seq; lia]. }
    rewrite E. assert (Eg : g v v = (/ qc (sig v))%Qc).
    { unfold g. rewrite Hv, Nat.leb_refl, Nat.sub_diag, W_0, Nat.eqb_refl, qc_1. unfold Qcdiv. ring. }
    rewrite Eg. field. apply Qc_neq, qc_pos, Hp.
  Qed.
End Values.
