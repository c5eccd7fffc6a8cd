From Coq Require Import NArith QArith.
From Verif Require Import Base GNModel GNSpec.
Unset Strict Implicit.
Open Scope N_scope.

Lemma u32_small x : x < 2 ^ 32 -> u32 x = x.
Proof. apply N.mod_small. Qed.
Lemma qltb x y : Qlt_b x y = negb (Qle_bool y x).
Proof. reflexivity. Qed.
Lemma bit_top x k : x < 2 ^ k -> N.testbit (x + 2 ^ k) k = true /\ N.testbit x k = false.
Proof.
  intros H. assert (2 ^ k <> 0) by (apply N.pow_nonzero; lia). rewrite !N.testbit_eqb. split.
  - rewrite <- (N.mul_1_l (2 ^ k)) at 1. rewrite N.div_add by auto. rewrite N.div_small by auto. reflexivity.
  - rewrite N.div_small by auto. reflexivity.
Qed.
Lemma bit_low x k p : p < k -> N.testbit (x + 2 ^ k) p = N.testbit x p.
Proof.
  intros H. assert (2 ^ p <> 0) by (apply N.pow_nonzero; lia). rewrite !N.testbit_eqb.
  assert (E : 2 ^ k = 2 * 2 ^ (k - p - 1) * 2 ^ p).
  { rewrite <- N.pow_succ_r', <- N.pow_add_r. f_equal. lia. }
  rewrite E, N.div_add by auto. rewrite (N.mul_comm 2), N.mod_add by discriminate. reflexivity.
Qed.

Section RMAT.
  Variable hash32 : N -> Q.
  Variable hash64 : N -> N.
  Variables a ab abc : Q.
  Hypothesis H1 : (a <= ab)%Q.
  Hypothesis H2 : (ab <= abc)%Q.
  Definition rowb (r : Q) : bool := Qle_bool ab r.
  Definition colb (r : Q) : bool := (Qle_bool a r && negb (Qle_bool ab r)) || Qle_bool abc r.
  Lemma quad r (x y d : N) :
    (if Qlt_b r a then Some (x, y) else if Qlt_b r ab then Some (x, u32 (y + d)) else if Qlt_b r abc then Some (u32 (x + d), y)
     else Some (u32 (x + d), u32 (y + d))) = Some (if rowb r then u32 (x + d) else x, if colb r then u32 (y + d) else y).
  Proof.
    unfold rowb, colb. rewrite !qltb.
    assert (M : forall p q : Q, (p <= q)%Q -> Qle_bool q r = true -> Qle_bool p r = true).
    { intros p q L X. apply Qle_bool_iff in X. apply Qle_bool_iff. eapply Qle_trans; eauto. }
    pose proof (M _ _ H1) as M1. pose proof (M _ _ H2) as M2.
    destruct (Qle_bool a r); destruct (Qle_bool ab r); destruct (Qle_bool abc r); simpl; auto;
      first [discriminate (M1 eq_refl)|discriminate (M2 eq_refl)].
  Qed.
  Theorem rec_bits k : forall fuel start stride, (k <= fuel)%nat -> (k < 32)%nat -> start < 2 ^ 32 ->
    exists x y, rMatRec hash32 a ab abc fuel (2 ^ N.of_nat k) start stride = Some (x, y) /\ x < 2 ^ N.of_nat k /\ y < 2 ^ N.of_nat k /\
      forall l, (l < k)%nat ->
        N.testbit x (N.of_nat (k - 1 - l)) = rowb (hash32 (u32 (start + N.of_nat l * stride))) /\
        N.testbit y (N.of_nat (k - 1 - l)) = colb (hash32 (u32 (start + N.of_nat l * stride))).
  Proof.
    induction k as [|k IH]; intros fuel start stride Hf Hk Hst.
    - exists 0, 0. split; [destruct fuel; reflexivity|]. split; [reflexivity|]. split; [reflexivity|]. intros l Hl; lia.
    - destruct fuel as [|fuel]; [lia|]. cbn [rMatRec].
      assert (Ep : 2 ^ N.of_nat (S k) = 2 * 2 ^ N.of_nat k) by (rewrite Nat2N.inj_succ; apply N.pow_succ_r').
      assert (Hp : 0 < 2 ^ N.of_nat k) by (apply N.neq_0_lt_0, N.pow_nonzero; lia).
      destruct (N.eqb_spec (2 ^ N.of_nat (S k)) 1); [lia|].
      assert (Ed : 2 ^ N.of_nat (S k) / 2 = 2 ^ N.of_nat k) by (rewrite Ep, N.mul_comm; apply N.div_mul; lia). rewrite Ed.
      assert (Hu : u32 (start + stride) < 2 ^ 32) by (apply N.mod_lt; discriminate).
      destruct (IH fuel (u32 (start + stride)) stride ltac:(lia) ltac:(lia) Hu) as (x & y & E & Hx & Hy & Hb). rewrite E, quad.
      assert (Hw : 2 ^ N.of_nat (S k) <= 2 ^ 32) by (apply N.pow_le_mono_r; lia).
      rewrite !u32_small by lia. eexists. eexists. split; [reflexivity|].
      split; [destruct (rowb _); lia|]. split; [destruct (colb _); lia|].
      intros l Hl. destruct l as [|l].
      + replace (S k - 1 - 0)%nat with k by lia. cbn [N.of_nat]. rewrite N.mul_0_l, N.add_0_r, (u32_small Hst).
        destruct (bit_top Hx) as [Tx Fx]. destruct (bit_top Hy) as [Ty Fy].
        split; [destruct (rowb _); auto|destruct (colb _); auto].
      + assert (Ea : u32 (u32 (start + stride) + N.of_nat l * stride) = u32 (start + N.of_nat (S l) * stride)).
        { unfold u32. rewrite N.add_mod_idemp_l by discriminate. f_equal. lia. }
        destruct (Hb l ltac:(lia)) as [B1 B2]. rewrite Ea in B1, B2. rewrite <- B1, <- B2.
        replace (S k - 1 - S l)%nat with (k - 1 - l)%nat by lia.
        split; [destruct (rowb (hash32 start))|destruct (colb (hash32 start))]; auto; apply bit_low; lia.
  Qed.
End RMAT.

Lemma log2_up_31 n : 1 <= n -> n <= 2 ^ 31 -> log2_up32 n < 32.
Proof.
  intros H1 H2. unfold log2_up32. destruct (N.eqb_spec n 0); [lia|]. apply N.le_lt_trans with (N.log2_up (2 ^ 31)).
  - apply N.log2_up_le_mono. exact H2.
  - rewrite N.log2_up_pow2 by lia. lia.
Qed.
Lemma log2_up_big n : n = 0 \/ 2 ^ 31 < n -> 32 <= log2_up32 n.
Proof.
  intros H. unfold log2_up32. destruct (N.eqb_spec n 0); [lia|]. destruct H as [H|H]; [lia|].
  assert (31 < N.log2_up n); [|lia]. apply N.log2_up_lt_pow2; lia.
Qed.
Lemma pow_again k : log2_up32 (2 ^ k) = k.
Proof. unfold log2_up32. destruct (N.eqb_spec (2 ^ k) 0) as [E|E]; [exfalso; revert E; apply N.pow_nonzero; lia|]. apply N.log2_up_pow2. lia. Qed.
Lemma start_lt hash64 h i : start_of hash64 h i < 2 ^ 32.
Proof. apply N.mod_lt. discriminate. Qed.
Lemma repeat_31 hash64 h i : start_of hash64 h (i + 2 ^ 31) = start_of hash64 h i /\ stride_of hash64 h (i + 2 ^ 31) = stride_of hash64 h i.
Proof.
  assert (E : forall c, u32 (2 * u32 (i + 2 ^ 31) + c) = u32 (2 * u32 i + c)).
  { intros c. unfold u32. rewrite <- (N.add_mod_idemp_l (2 * _)) by discriminate. rewrite N.mul_mod_idemp_r by discriminate.
    replace (2 * (i + 2 ^ 31)) with (2 * i + 1 * 2 ^ 32) by (change (2 ^ 31) with 2147483648; change (2 ^ 32) with 4294967296; lia).
    rewrite N.mod_add by discriminate. rewrite <- (N.mul_mod_idemp_r 2 i) by discriminate. now rewrite N.add_mod_idemp_l by discriminate. }
  unfold start_of, stride_of. rewrite (E 1). pose proof (E 0) as E0. rewrite !N.add_0_r in E0. now rewrite E0.
Qed.
