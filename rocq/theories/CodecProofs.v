(* Proofs about the byte codec primitives. *)
From Verif Require Import Base CodecModel CodecSpec.
From Coq Require Import NArith ZArith Lia.
Local Open Scope N_scope.

(* -- memory ---------------------------------------------------------- *)
Fixpoint wr (m : mem) (a : nat) (l : list N) : mem :=
  match l with [] => m | x :: l' => wr (fset m a x) (S a) l' end.
Definition holds (m : mem) (a : nat) (l : list N) : Prop :=
  forall i, (i < length l)%nat -> m (a + i)%nat = nth i l 0.

Lemma wr_out l : forall m a b, (b < a \/ a + length l <= b)%nat -> wr m a l b = m b.
Proof.
  induction l as [|x l IH]; intros m a b H; simpl in *; auto.
  rewrite IH by lia. apply fset_other. lia.
Qed.
Lemma wr_app l1 : forall m a l2, wr m a (l1 ++ l2) = wr (wr m a l1) (a + length l1) l2.
Proof.
  induction l1 as [|x l1 IH]; intros; simpl.
  - now rewrite Nat.add_0_r.
  - rewrite IH. f_equal. lia.
Qed.
Lemma holds_nil m a : holds m a [].
Proof. intros i H. simpl in H. lia. Qed.
Lemma holds_cons m a x l : holds m a (x :: l) <-> m a = x /\ holds m (S a) l.
Proof.
  split.
  - intros H. split.
    + specialize (H O). simpl in H. rewrite Nat.add_0_r in H. apply H. lia.
    + intros i Hi. specialize (H (S i)). simpl in H. replace (S a + i)%nat with (a + S i)%nat by lia.
      apply H. lia.
  - intros [H1 H2] i Hi. destruct i as [|i]; simpl in *.
    + now rewrite Nat.add_0_r.
    + replace (a + S i)%nat with (S a + i)%nat by lia. apply H2. lia.
Qed.
Lemma holds_app m a l1 l2 : holds m a (l1 ++ l2) <-> holds m a l1 /\ holds m (a + length l1) l2.
Proof.
  revert a. induction l1 as [|x l1 IH]; intros a; simpl.
  - rewrite Nat.add_0_r. split; [intros; split; auto; apply holds_nil|tauto].
  - rewrite !holds_cons, IH. replace (a + S (length l1))%nat with (S a + length l1)%nat by lia. tauto.
Qed.
Lemma holds_wr l : forall m a, holds (wr m a l) a l.
Proof.
  induction l as [|x l IH]; intros m a; simpl; [apply holds_nil|].
  apply holds_cons. split; auto. rewrite wr_out by lia. apply fset_same.
Qed.
Lemma holds_ext m m' a l : (forall b, (a <= b < a + length l)%nat -> m' b = m b) -> holds m a l -> holds m' a l.
Proof. intros H Hl i Hi. rewrite H by lia. auto. Qed.
Lemma holds_wr_other m a l b l' : (b + length l' <= a \/ a + length l <= b)%nat ->
  holds m a l -> holds (wr m b l') a l.
Proof. intros H. apply holds_ext. intros c Hc. apply wr_out. lia. Qed.

(* -- varint ----------------------------------------------------------- *)
Definition vbyte (v : N) : N :=
  if 0 <? N.shiftr v 7 then N.lor (N.land v 127) 128 else N.land v 127.
Fixpoint vb (fuel : nat) (v : N) : list N :=
  match fuel with
  | O => []
  | S fuel => if v =? 0 then [] else vbyte v :: vb fuel (N.shiftr v 7)
  end.

Lemma shiftr7 v : N.shiftr v 7 = v / 128.
Proof. now rewrite N.shiftr_div_pow2. Qed.
Lemma land127 v : N.land v 127 = v mod 128.
Proof. change 127 with (N.ones 7). now rewrite N.land_ones. Qed.
Lemma shiftr6 v : N.shiftr v 6 = v / 64.
Proof. now rewrite N.shiftr_div_pow2. Qed.
Lemma land63 v : N.land v 63 = v mod 64.
Proof. change 63 with (N.ones 6). now rewrite N.land_ones. Qed.

Lemma div128_lt v f : v < 2 ^ (7 * N.of_nat (S f)) -> v / 128 < 2 ^ (7 * N.of_nat f).
Proof.
  intros H. apply N.div_lt_upper_bound; [discriminate|].
  replace (7 * N.of_nat (S f)) with (7 + 7 * N.of_nat f) in H by lia.
  rewrite N.pow_add_r in H. exact H.
Qed.

Lemma put_loop_S fuel m off v : put_loop (S fuel) m off v =
  if (0 <? N.land v 127) || (0 <? v) then put_loop fuel (fset m off (vbyte v)) (S off) (N.shiftr v 7)
  else Some (m, off).
Proof. reflexivity. Qed.

Lemma put_loop_writes f : forall m off v, v < 2 ^ (7 * N.of_nat f) ->
  put_loop (S f) m off v = Some (wr m off (vb f v), (off + length (vb f v))%nat).
Proof.
  induction f as [|f IH]; intros m off v Hv; rewrite put_loop_S.
  - assert (v = 0) as -> by (simpl in Hv; lia). simpl. now rewrite Nat.add_0_r.
  - cbn [vb]. destruct (N.eqb_spec v 0) as [->|Hne].
    + simpl. now rewrite Nat.add_0_r.
    + rewrite (proj2 (N.ltb_lt 0 v)) by lia. rewrite orb_true_r.
      cbn [wr length]. rewrite IH.
      * do 2 f_equal. lia.
      * rewrite shiftr7. now apply div128_lt.
Qed.

Lemma pos_size_nat p : Pos.size_nat p = Pos.to_nat (Pos.size p).
Proof. induction p; simpl; auto; rewrite IHp; lia. Qed.
Lemma size_nat_lt v : v < 2 ^ (7 * N.of_nat (N.size_nat v)).
Proof.
  destruct v as [|p]; [reflexivity|].
  assert (H : N.of_nat (N.size_nat (Npos p)) = N.size (Npos p)).
  { simpl. rewrite pos_size_nat. now rewrite positive_nat_N. }
  rewrite H. eapply N.lt_le_trans; [apply N.size_gt|]. apply N.pow_le_mono_r; lia.
Qed.

Definition vbytes (v : N) : list N := vb (N.size_nat v) v.

Lemma compressEdge_writes m off v :
  compressEdge m off v = Some (wr m off (vbytes v), (off + length (vbytes v))%nat).
Proof. apply put_loop_writes, size_nat_lt. Qed.

Lemma vbyte_testbit v : N.testbit (vbyte v) 7 = (0 <? v / 128).
Proof.
  unfold vbyte. rewrite shiftr7.
  assert (H : N.testbit (N.land v 127) 7 = false).
  { rewrite N.land_spec. change (N.testbit 127 7) with false. apply andb_false_r. }
  destruct (0 <? v / 128); auto. rewrite N.lor_spec, H. reflexivity.
Qed.
Lemma vbyte_land v : N.land (vbyte v) 127 = v mod 128.
Proof.
  unfold vbyte. destruct (0 <? N.shiftr v 7).
  - rewrite N.land_lor_distr_l. rewrite <- N.land_assoc. change (N.land 127 127) with 127.
    change (N.land 128 127) with 0. now rewrite N.lor_0_r, land127.
  - rewrite <- N.land_assoc. apply land127.
Qed.
Lemma vbyte_lt v : vbyte v < 256.
Proof.
  unfold vbyte. rewrite land127. pose proof (N.mod_lt v 128).
  assert (E : forall x, x < 128 -> N.lor x 128 = x + 128).
  { intros x Hx. rewrite N.add_nocarry_lxor, N.lxor_lor; auto;
    apply N.bits_inj_0; intros n; rewrite N.land_spec;
    (destruct (N.eq_dec n 7) as [->|Hn];
     [rewrite <- (N.mod_small x 128) by auto; rewrite <- land127, N.land_spec; change (N.testbit 127 7) with false; rewrite andb_false_r; auto
     |change 128 with (2 ^ 7); rewrite N.pow2_bits_false by auto; apply andb_false_r]). }
  destruct (0 <? N.shiftr v 7); [rewrite E|]; lia.
Qed.

Section Get.
  Variable op : N -> N -> N.
  Hypothesis op_add : forall sh acc x, acc < 2 ^ sh -> acc + x * 2 ^ sh < two32 ->
    op acc (N.shiftl x sh mod two32) = acc + x * 2 ^ sh.

  Lemma get_loop_reads k : forall f m a v sh acc,
    0 < v -> v < 2 ^ (7 * N.of_nat f) -> v < 2 ^ (7 * N.of_nat k) ->
    acc < 2 ^ sh -> acc + v * 2 ^ sh < two32 ->
    holds m a (vb f v) ->
    get_loop op k m a sh acc = Some (acc + v * 2 ^ sh, (a + length (vb f v))%nat).
  Proof.
    induction k as [|k IH]; intros f m a v sh acc H0 Hf Hk Hacc Hr Hh.
    - simpl in Hk. lia.
    - destruct f as [|f]; [simpl in Hf; lia|].
      cbn [vb] in *. rewrite (proj2 (N.eqb_neq v 0)) in * by lia.
      apply holds_cons in Hh as [Hb Hh].
      cbn [get_loop]. rewrite Hb, vbyte_testbit, vbyte_land.
      pose proof (N.div_mod v 128) as Hdm.
      assert (Hle : v mod 128 <= v) by (apply N.mod_le; discriminate).
      assert (Hsm : acc + v mod 128 * 2 ^ sh < two32).
      { eapply N.le_lt_trans; [|exact Hr]. apply N.add_le_mono_l, N.mul_le_mono_r. auto. }
      rewrite op_add by auto.
      assert (Hpow : 2 ^ (sh + 7) = 128 * 2 ^ sh).
      { rewrite N.pow_add_r. change (2 ^ 7) with 128. apply N.mul_comm. }
      destruct (N.ltb_spec 0 (v / 128)) as [Hq|Hq].
      + rewrite shiftr7 in *. rewrite (IH f m (S a) (v / 128) (sh + 7)).
        * f_equal. f_equal; [|cbn [length]; lia].
          rewrite Hpow. rewrite Hdm at 3 by discriminate. lia.
        * exact Hq.
        * now apply div128_lt.
        * now apply div128_lt.
        * rewrite Hpow. pose proof (N.mod_lt v 128).
          assert (v mod 128 <= 127) by lia.
          assert (v mod 128 * 2 ^ sh <= 127 * 2 ^ sh) by (now apply N.mul_le_mono_r). lia.
        * rewrite Hpow. replace (v / 128 * (128 * 2 ^ sh)) with (128 * (v / 128) * 2 ^ sh) by lia.
          rewrite Hdm in Hr at 1 by discriminate. lia.
        * exact Hh.
      + assert (Hz : v / 128 = 0) by lia. rewrite shiftr7, Hz.
        assert (v mod 128 = v) by (rewrite Hz in Hdm; rewrite Hdm at 2 by discriminate; lia).
        rewrite H. f_equal. f_equal. destruct f; simpl; lia.
  Qed.
End Get.

Lemma op_add_add sh acc x : acc < 2 ^ sh -> acc + x * 2 ^ sh < two32 ->
  (acc + N.shiftl x sh mod two32) mod two32 = acc + x * 2 ^ sh.
Proof.
  intros H1 H2. rewrite N.shiftl_mul_pow2. rewrite (N.mod_small (x * 2 ^ sh)) by lia.
  now apply N.mod_small.
Qed.

Lemma lor_add_shift sh acc x : acc < 2 ^ sh -> N.lor acc (x * 2 ^ sh) = acc + x * 2 ^ sh.
Proof.
  intros H.
  assert (E : N.land acc (x * 2 ^ sh) = 0).
  { apply N.bits_inj_0. intros n. rewrite N.land_spec. destruct (N.lt_ge_cases n sh) as [Hn|Hn].
    - rewrite N.mul_pow2_bits_low by auto. apply andb_false_r.
    - destruct (N.eq_dec acc 0) as [->|Hz]; [now rewrite N.bits_0|].
      rewrite (N.bits_above_log2 acc n); auto.
      eapply N.lt_le_trans; [|exact Hn]. apply N.log2_lt_pow2; lia. }
  now rewrite N.add_nocarry_lxor, N.lxor_lor by auto.
Qed.

Lemma op_add_lor sh acc x : acc < 2 ^ sh -> acc + x * 2 ^ sh < two32 ->
  N.lor acc (N.shiftl x sh mod two32) = acc + x * 2 ^ sh.
Proof.
  intros H1 H2. rewrite N.shiftl_mul_pow2. rewrite (N.mod_small (x * 2 ^ sh)) by lia.
  now apply lor_add_shift.
Qed.

Lemma eatEdge_reads m a v : 0 < v -> v < two32 -> holds m a (vbytes v) ->
  eatEdge m a = Some (v, (a + length (vbytes v))%nat).
Proof.
  intros H0 Hv Hh. unfold eatEdge.
  rewrite (@get_loop_reads _ (fun sh acc x => @op_add_add sh acc x) 5 (N.size_nat v) m a v 0 0); auto.
  - f_equal. f_equal. rewrite N.pow_0_r. lia.
  - apply size_nat_lt.
  - eapply N.lt_trans; [exact Hv|]. reflexivity.
  - reflexivity.
  - rewrite N.pow_0_r. lia.
Qed.

(* -- signed first value ------------------------------------------------ *)
Definition fbyte (d : Z) : N :=
  let tc := z32 (Z.abs d) in
  let fb := N.land tc 63 in
  let fb := if (d <? 0)%Z then N.lor fb 64 else fb in
  if 0 <? N.shiftr tc 6 then N.lor fb 128 else fb.
Definition sbytes (d : Z) : list N := fbyte d :: vbytes (N.shiftr (z32 (Z.abs d)) 6).

Lemma compressFirstEdge_writes m off s t :
  compressFirstEdge m off s t = Some (wr m off (sbytes (t - s)), (off + length (sbytes (t - s)))%nat).
Proof.
  unfold compressFirstEdge. rewrite put_loop_writes by apply size_nat_lt.
  unfold sbytes. cbn [wr length]. fold (fbyte (t - s)).
  unfold vbytes. f_equal. f_equal. lia.
Qed.

Lemma z32_small x : (0 <= x < 4294967296)%Z -> z32 x = Z.to_N x.
Proof. intros H. unfold z32. now rewrite Z.mod_small. Qed.

Lemma fbyte_7 d : N.testbit (fbyte d) 7 = (0 <? z32 (Z.abs d) / 64).
Proof.
  unfold fbyte. rewrite shiftr6. set (tc := z32 (Z.abs d)).
  assert (H : N.testbit (if (d <? 0)%Z then N.lor (N.land tc 63) 64 else N.land tc 63) 7 = false).
  { destruct (d <? 0)%Z; rewrite ?N.lor_spec, ?N.land_spec; change (N.testbit 63 7) with false;
    now rewrite andb_false_r. }
  destruct (0 <? tc / 64); auto. now rewrite N.lor_spec, orb_true_r.
Qed.
Lemma fbyte_6 d : N.testbit (fbyte d) 6 = (d <? 0)%Z.
Proof.
  unfold fbyte. set (tc := z32 (Z.abs d)).
  assert (H : N.testbit (if (d <? 0)%Z then N.lor (N.land tc 63) 64 else N.land tc 63) 6 = (d <? 0)%Z).
  { destruct (d <? 0)%Z; rewrite ?N.lor_spec, ?N.land_spec; change (N.testbit 63 6) with false;
    now rewrite andb_false_r. }
  destruct (0 <? N.shiftr tc 6); auto. rewrite N.lor_spec, H. apply orb_false_r.
Qed.
Lemma fbyte_land d : N.land (fbyte d) 63 = z32 (Z.abs d) mod 64.
Proof.
  unfold fbyte. set (tc := z32 (Z.abs d)).
  assert (H : N.land (if (d <? 0)%Z then N.lor (N.land tc 63) 64 else N.land tc 63) 63 = tc mod 64).
  { destruct (d <? 0)%Z; rewrite ?N.land_lor_distr_l, <- ?N.land_assoc; change (N.land 63 63) with 63;
    rewrite land63; auto. change (N.land 64 63) with 0. apply N.lor_0_r. }
  destruct (0 <? N.shiftr tc 6); auto. rewrite N.land_lor_distr_l, H. apply N.lor_0_r.
Qed.

Lemma eatSigned_reads m a d : (Z.abs d < 4294967296)%Z -> holds m a (sbytes d) ->
  eatSigned m a = Some ((d <? 0)%Z, Z.to_N (Z.abs d), (a + length (sbytes d))%nat).
Proof.
  intros Hd Hh. unfold sbytes in *. apply holds_cons in Hh as [Hb Hh].
  unfold eatSigned. rewrite Hb, fbyte_7, fbyte_6, fbyte_land.
  rewrite z32_small in * by lia. set (v := Z.to_N (Z.abs d)) in *.
  assert (Hv : v < two32) by (unfold v, two32; lia).
  pose proof (N.div_mod v 64) as Hdm. pose proof (N.mod_lt v 64) as Hml.
  rewrite shiftr6 in *. cbn [length].
  destruct (N.ltb_spec 0 (v / 64)) as [Hq|Hq].
  - rewrite (@get_loop_reads _ (fun sh acc x => @op_add_lor sh acc x) 4 (N.size_nat (v / 64)) m (S a) (v / 64) 6 (v mod 64)); auto.
    + f_equal. f_equal; [f_equal|unfold vbytes; lia]. change (2 ^ 6) with 64. lia.
    + apply size_nat_lt.
    + apply N.div_lt_upper_bound; [discriminate|]. eapply N.lt_trans; [exact Hv|reflexivity].
    + change (2 ^ 6) with 64. lia.
    + change (2 ^ 6) with 64. lia.
  - assert (Hz : v / 64 = 0) by lia. rewrite Hz in *. f_equal. f_equal; [f_equal|simpl; lia].
    rewrite Hdm by discriminate. rewrite N.mul_0_r. rewrite N.add_0_l. now rewrite N.mod_mod.
Qed.

Lemma eatFirstEdge_reads m a s v : s < two32 -> v < two32 ->
  holds m a (sbytes (Z.of_N v - Z.of_N s)) ->
  eatFirstEdge m a s = Some (v, (a + length (sbytes (Z.of_N v - Z.of_N s)))%nat).
Proof.
  intros Hs Hv Hh. unfold two32 in *. unfold eatFirstEdge.
  rewrite (@eatSigned_reads m a _) with (2 := Hh) by lia.
  f_equal. f_equal. destruct (Z.ltb_spec (Z.of_N v - Z.of_N s) 0) as [H|H].
  - rewrite z32_small; lia.
  - rewrite z32_small; lia.
Qed.

(* -- weights ------------------------------------------------------------ *)
Definition le32 (v : N) : list N :=
  [v mod 256; N.shiftr v 8 mod 256; N.shiftr v 16 mod 256; N.shiftr v 24 mod 256].
Definition wbytes (w : wty) (x : Z) : list N :=
  match w with WEmpty => [] | WInt => sbytes x | WFloat => le32 (Z.to_N x) end.

Lemma compressWeight_writes w m off x :
  compressWeight w m off x = Some (wr m off (wbytes w x), (off + length (wbytes w x))%nat).
Proof.
  destruct w; simpl compressWeight.
  - simpl. now rewrite Nat.add_0_r.
  - rewrite compressFirstEdge_writes. now rewrite Z.sub_0_r.
  - unfold store32. cbn [wbytes]. unfold le32. cbn [wr length]. f_equal. f_equal. lia.
Qed.

Lemma load32_reads m a v : v < two32 -> holds m a (le32 v) -> load32 m a = v.
Proof.
  intros Hv Hh. unfold le32 in Hh.
  apply holds_cons in Hh as [H0 Hh]. apply holds_cons in Hh as [H1 Hh].
  apply holds_cons in Hh as [H2 Hh]. apply holds_cons in Hh as [H3 _].
  unfold load32. rewrite H0, H1, H2, H3.
  rewrite !N.shiftr_div_pow2, !N.shiftl_mul_pow2.
  change (2 ^ 8) with 256. change (2 ^ 16) with (256 * 256). change (2 ^ 24) with (256 * 256 * 256).
  rewrite <- !N.div_div by discriminate.
  pose proof (N.div_mod v 256). pose proof (N.div_mod (v / 256) 256). pose proof (N.div_mod (v / 256 / 256) 256).
  assert (v / 256 / 256 / 256 < 256).
  { unfold two32 in Hv. repeat (apply N.div_lt_upper_bound; [discriminate|]). lia. }
  rewrite (N.mod_small (v / 256 / 256 / 256)) by auto. lia.
Qed.

Lemma eatWeight_reads w m a x : valid_w w x -> holds m a (wbytes w x) ->
  eatWeight w m a = Some (x, (a + length (wbytes w x))%nat).
Proof.
  intros Hx Hh. destruct w; simpl in *.
  - subst. now rewrite Nat.add_0_r.
  - rewrite (@eatSigned_reads m a x) by (auto; lia).
    destruct (Z.ltb_spec x 0).
    + rewrite (proj2 (N.leb_gt _ _)) by lia. f_equal. f_equal. lia.
    + rewrite (proj2 (N.leb_gt _ _)) by lia. f_equal. f_equal. lia.
  - rewrite (@load32_reads m a (Z.to_N x)) by (auto; unfold two32; lia). f_equal. f_equal; lia.
Qed.
