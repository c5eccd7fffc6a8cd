(* Proofs about the block codec. *)
From Verif Require Import Base CodecModel CodecSpec CodecProofs CodecList PDModel PDSpec.
From Coq Require Import NArith ZArith Lia Sorted.
Local Open Scope N_scope.

(* -- primitives --------------------------------------------------------- *)
Lemma signed32_z32 x : (-2147483648 <= x < 2147483648)%Z -> signed32 (z32 x) = x.
Proof.
  intros H. unfold signed32, z32. destruct (Z.neg_nonneg_cases x) as [Hn|Hn].
  - assert (E : (x mod 4294967296 = x + 4294967296)%Z) by (symmetry; apply Z.mod_unique_pos with (-1)%Z; lia).
    rewrite E. destruct (N.ltb_spec (Z.to_N (x + 4294967296)) 2147483648); lia.
  - rewrite Z.mod_small by lia. destruct (N.ltb_spec (Z.to_N x) 2147483648); lia.
Qed.
Lemma z32_sub0 x : z32 (Z.of_N (z32 x) - Z.of_N 0) = z32 x.
Proof.
  unfold z32. rewrite Z.sub_0_r. rewrite Z2N.id.
  - now rewrite Z.mod_mod.
  - apply Z.mod_pos_bound. lia.
Qed.
Lemma cF_near m off s v : (Z.abs (Z.of_N v - Z.of_N s) < 2147483648)%Z ->
  compressFirst32 m off s v
  = Some (wr m off (sbytes (Z.of_N v - Z.of_N s)), (off + length (sbytes (Z.of_N v - Z.of_N s)))%nat).
Proof.
  intros H. unfold compressFirst32. rewrite signed32_z32 by lia.
  destruct (Z.eqb_spec (Z.of_N v - Z.of_N s) (-2147483648)); [lia|].
  rewrite compressFirstEdge_writes. now rewrite Z.sub_0_r.
Qed.
Lemma pd_cW w m off x : w <> WFloat -> valid_w w x ->
  pd_compressWeight w m off x = Some (wr m off (wbytes w x), (off + length (wbytes w x))%nat).
Proof.
  intros Hw Hx. destruct w; [simpl; now rewrite Nat.add_0_r| |congruence].
  cbn [pd_compressWeight wbytes valid_w] in *.
  unfold compressFirst32. rewrite z32_sub0, signed32_z32 by lia.
  destruct (Z.eqb_spec x (-2147483648)); [lia|].
  rewrite compressFirstEdge_writes. now rewrite Z.sub_0_r.
Qed.
Lemma pd_eW w m a : w <> WFloat -> pd_eatWeight w m a = eatWeight w m a.
Proof. destruct w; cbn [pd_eatWeight eatWeight]; congruence. Qed.

Lemma sbytes_len d : (length (sbytes d) <= 5)%nat.
Proof.
  unfold sbytes. cbn [length]. apply le_n_S. apply vlen_iff. rewrite shiftr6.
  apply N.div_lt_upper_bound; [discriminate|].
  assert (z32 (Z.abs d) < 4294967296).
  { unfold z32. pose proof (Z.mod_pos_bound (Z.abs d) 4294967296). lia. }
  eapply N.lt_trans; [eassumption|reflexivity].
Qed.
Lemma vbytes_len v : v < two32 -> (length (vbytes v) <= 5)%nat.
Proof. intros H. apply vlen_iff. eapply N.lt_trans; [exact H|reflexivity]. Qed.
Lemma wbytes_len w x : (length (wbytes w x) <= 5)%nat.
Proof. destruct w; cbn [wbytes]; [simpl; lia|apply sbytes_len|]. unfold le32. cbn [length]. lia. Qed.
Lemma encRest_len w l : forall p, okRest w p l -> (length (encRest w p l) <= 10 * length l)%nat.
Proof.
  induction l as [|[v x] l IH]; intros p H; cbn [encRest length]; [lia|].
  destruct H as (H1 & H2 & H3 & H4). rewrite !app_length. apply IH in H4.
  assert (v - p < two32) as Hg by lia. apply vbytes_len in Hg. pose proof (wbytes_len w x). lia.
Qed.
Lemma enc_len w src l : ok w l -> (length (enc w src l) <= 10 * length l)%nat.
Proof.
  destruct l as [|[v x] l]; intros H; cbn [enc length]; [lia|].
  destruct H as (H2 & H3 & H4). rewrite !app_length. apply encRest_len in H4.
  pose proof (sbytes_len (Z.of_N v - Z.of_N src)). pose proof (wbytes_len w x). lia.
Qed.

(* -- sublists of a good list --------------------------------------------- *)
Lemma okRest_skip w l : forall k p, okRest w p l -> okRest w p (skipn k l).
Proof.
  induction l as [|[v x] l IH]; intros k p H; destruct k; simpl; auto.
  destruct H as (H1&H2&H3&H4). apply okRest_weaken with v; [lia|]. apply IH; auto.
Qed.
Lemma ok_skip w l k : ok w l -> ok w (skipn k l).
Proof.
  destruct l as [|[v x] l]; destruct k; simpl; auto. intros (H2&H3&H4).
  eapply okRest_ok. apply okRest_skip; eauto.
Qed.
Lemma okRest_first w l : forall k p, okRest w p l -> okRest w p (firstn k l).
Proof.
  induction l as [|[v x] l IH]; intros k p H; destruct k; simpl; auto.
  destruct H as (H1&H2&H3&H4). repeat split; auto.
Qed.
Lemma ok_first w l k : ok w l -> ok w (firstn k l).
Proof.
  destruct l as [|[v x] l]; destruct k; simpl; auto. intros (H2&H3&H4).
  repeat split; auto. now apply okRest_first.
Qed.
Lemma near_skip src l k : near src l -> near src (skipn k l).
Proof. unfold near. intros H. rewrite <- (firstn_skipn k l) in H. apply Forall_app in H. tauto. Qed.
Lemma near_first src l k : near src l -> near src (firstn k l).
Proof. unfold near. intros H. rewrite <- (firstn_skipn k l) in H. apply Forall_app in H. tauto. Qed.
Lemma near_filter src l p : near src l -> near src (filter p l).
Proof. unfold near. rewrite !Forall_forall. intros H x Hx. apply filter_In in Hx. apply H. tauto. Qed.

(* -- one block ------------------------------------------------------------- *)
(* The primitives as used by the block loops. *)
Section Prims.
  Variable w : wty.
  Variable cF : mem -> nat -> N -> N -> option (mem * nat).
  Variable cW : mem -> nat -> Z -> option (mem * nat).
  Variable eW : mem -> nat -> option (Z * nat).
  Variable near1 : N -> N -> Prop.
  Hypothesis HcF : forall m off s v, near1 s v ->
    cF m off s v = Some (wr m off (sbytes (Z.of_N v - Z.of_N s)), (off + length (sbytes (Z.of_N v - Z.of_N s)))%nat).
  Hypothesis HcW : forall m off x, valid_w w x ->
    cW m off x = Some (wr m off (wbytes w x), (off + length (wbytes w x))%nat).
  Hypothesis HeW : forall m a, eW m a = eatWeight w m a.

  Lemma writeRest_writes l : forall m off prev, okRest w prev l ->
    writeRest cW m off prev l = Some (wr m off (encRest w prev l), (off + length (encRest w prev l))%nat).
  Proof.
    induction l as [|[v x] l IH]; intros m off prev H.
    - simpl. now rewrite Nat.add_0_r.
    - destruct H as (H1 & H2 & H3 & H4). cbn [writeRest encRest].
      rewrite diff32 by auto. rewrite compressEdge_writes, HcW, IH by auto.
      rewrite !wr_app, !app_length. f_equal. f_equal. lia.
  Qed.
  Lemma writeBlock_writes l m off src : ok w l -> Forall (fun e => near1 src (fst e)) l ->
    writeBlock cF cW m off src l = Some (wr m off (enc w src l), (off + length (enc w src l))%nat).
  Proof.
    destruct l as [|[v x] l]; intros H Hn.
    - simpl. now rewrite Nat.add_0_r.
    - destruct H as (H2 & H3 & H4). apply Forall_inv in Hn. cbn [writeBlock enc].
      rewrite HcF, HcW, writeRest_writes by auto.
      rewrite !wr_app, !app_length. f_equal. f_equal. lia.
  Qed.

  Lemma walkRest_run t l : forall m a ngh id, okRest w ngh l -> holds m a (encRest w ngh l) ->
    walkRest eW t m a ngh id (length l) = Some (upto t id l, all_true t id l).
  Proof.
    induction l as [|[v x] l IH]; intros m a ngh id Hok Hh; [reflexivity|].
    destruct Hok as (H1 & H2 & H3 & H4). cbn [encRest] in Hh.
    apply holds_app in Hh as [Hh1 Hh]. apply holds_app in Hh as [Hh2 Hh3].
    cbn [walkRest length upto all_true]. rewrite (eatEdge_gap H1 H2 Hh1). cbv zeta.
    rewrite add32 by auto. rewrite HeW, (@eatWeight_reads w _ _ _ H3 Hh2).
    rewrite IH by auto. destruct (t v x id); auto.
  Qed.
  Lemma walkBlock_run t l m a src id : src < two32 -> ok w l -> l <> [] -> holds m a (enc w src l) ->
    walkBlock eW t m a src id (length l) = Some (upto t id l, all_true t id l).
  Proof.
    intros Hs. destruct l as [|[v x] l]; intros Hok Hne Hh; [congruence|].
    destruct Hok as (H2 & H3 & H4). cbn [enc] in Hh.
    apply holds_app in Hh as [Hh1 Hh]. apply holds_app in Hh as [Hh2 Hh3].
    unfold walkBlock. rewrite (eatFirstEdge_reads Hs H2 Hh1).
    rewrite HeW, (@eatWeight_reads w _ _ _ H3 Hh2). cbn [length upto all_true].
    rewrite Nat.sub_succ, Nat.sub_0_r. rewrite walkRest_run by auto. destruct (t v x id); auto.
  Qed.
End Prims.

Lemma upto_true l : forall id, upto (fun _ _ _ => true) id l
  = map (fun p => (fst (fst p), snd (fst p), snd p)) (combine l (seq id (length l))).
Proof. induction l as [|[v x] l IH]; intros id; simpl; auto. now rewrite IH. Qed.
Lemma upto_true_edges l id : map (fun c => (fst (fst c), snd (fst c))) (upto (fun _ _ _ => true) id l) = l.
Proof. revert id. induction l as [|[v x] l IH]; intros id; simpl; auto. now rewrite IH. Qed.
Lemma all_true_true l : forall id, all_true (fun _ _ _ => true) id l = true.
Proof. induction l as [|[v x] l IH]; intros id; simpl; auto. Qed.

(* -- for_blocks -------------------------------------------------------------- *)
Lemma for_blocks_some {A} (f : nat -> option A) (g : nat -> A) k : forall i,
  (forall j, (i <= j < i + k)%nat -> f j = Some (g j)) ->
  for_blocks f i k = Some (map g (seq i k)).
Proof.
  induction k as [|k IH]; intros i H; simpl; auto.
  rewrite H by lia. rewrite IH; auto. intros j Hj. apply H. lia.
Qed.

Lemma skipn_skipn' {A} j : forall i (l : list A), skipn i (skipn j l) = skipn (j + i) l.
Proof.
  induction j as [|j IH]; intros i l; simpl; auto.
  destruct l; simpl; auto. now rewrite skipn_nil.
Qed.

Lemma concat_filter {A} (p : A -> bool) ls : concat (map (filter p) ls) = filter p (concat ls).
Proof. induction ls as [|l ls IH]; simpl; auto. now rewrite filter_app, IH. Qed.

(* -- blocks of a list ----------------------------------------------------------- *)
Section Blocks.
  Variable B : nat.
  Hypothesis HB : (1 <= B)%nat.

  Lemma block_S {A} i (l : list A) : block B (S i) l = block B i (skipn B l).
  Proof. unfold block. rewrite skipn_skipn'. reflexivity. Qed.
  Lemma block_0 {A} (l : list A) : block B 0 l = firstn B l.
  Proof. reflexivity. Qed.
  Lemma block_length {A} i (l : list A) : length (block B i l) = pd_count B (length l) i.
  Proof. unfold block, pd_count. rewrite firstn_length, skipn_length. lia. Qed.
  Lemma nblocks_ceil n : (0 < n)%nat -> nblocks B n = ceil_div n B.
  Proof.
    intros H. unfold nblocks, ceil_div. replace (n + B - 1)%nat with (1 * B + (n - 1))%nat by lia.
    rewrite Nat.div_add_l by lia. lia.
  Qed.
  Lemma nblocks_lt n i : (0 < n)%nat -> (i < nblocks B n)%nat -> (i * B < n)%nat.
  Proof.
    intros H Hi. unfold nblocks in Hi.
    assert (i <= (n - 1) / B)%nat as H1 by lia. pose proof (Nat.mul_div_le (n - 1) B). nia.
  Qed.
  Lemma nblocks_ge n i : (i * B < n)%nat -> (i < nblocks B n)%nat.
  Proof.
    intros H. unfold nblocks. assert (i <= (n - 1) / B)%nat; [|lia].
    apply Nat.div_le_lower_bound; lia.
  Qed.
  Lemma nblocks_minus n : (B < n)%nat -> nblocks B n = S (nblocks B (n - B)).
  Proof.
    intros H. unfold nblocks. replace (n - 1)%nat with (1 * B + (n - B - 1))%nat at 1 by lia.
    rewrite Nat.div_add_l by lia. lia.
  Qed.
  Lemma nblocks_cover n : (n <= nblocks B n * B)%nat.
  Proof. unfold nblocks. pose proof (Nat.div_mod (n - 1) B). pose proof (Nat.mod_upper_bound (n - 1) B). nia. Qed.
  Lemma block_nonempty {A} i (l : list A) : (0 < length l)%nat -> (i < nblocks B (length l))%nat -> block B i l <> [].
  Proof.
    intros H Hi Hb. apply nblocks_lt in Hi; auto. apply (f_equal (@length _)) in Hb.
    rewrite block_length in Hb. unfold pd_count in Hb. simpl in Hb. lia.
  Qed.
  Lemma concat_blocks_k {A} k : forall l : list A, concat (map (fun i => block B i l) (seq 0 k)) = firstn (k * B) l.
  Proof.
    induction k as [|k IH]; intros l; [reflexivity|].
    rewrite <- cons_seq, <- seq_shift. cbn [map concat]. rewrite map_map.
    erewrite map_ext; [|intros; apply block_S]. rewrite IH, block_0.
    rewrite <- (firstn_skipn B l) at 3. cbn [Nat.mul].
    rewrite firstn_app, (firstn_all2 (firstn B l)) by (rewrite firstn_length; lia).
    f_equal. rewrite firstn_length. destruct (Nat.le_gt_cases B (length l)).
    - f_equal. lia.
    - rewrite skipn_all2 by lia. now rewrite !firstn_nil.
  Qed.
  Lemma concat_blocks {A} (l : list A) : concat (map (fun i => block B i l) (seq 0 (nblocks B (length l)))) = l.
  Proof. rewrite concat_blocks_k. apply firstn_all2, nblocks_cover. Qed.
End Blocks.

(* -- the encoder -------------------------------------------------------------- *)
Lemma store32_wr m a v : store32 m a v = wr m a (le32 v).
Proof. reflexivity. Qed.
Lemma uint_at_store m a v m' : v < two32 -> (forall b, (a <= b < a + 4)%nat -> m' b = store32 m a v b) ->
  uint_at m' a = N.to_nat v.
Proof.
  intros Hv H. unfold uint_at. f_equal. apply load32_reads; auto.
  eapply holds_ext; [|apply (holds_wr (le32 v) m a)].
  intros b Hb. rewrite <- store32_wr. apply H. unfold le32 in Hb. cbn [length] in Hb. lia.
Qed.

Section PD.
  Variable B : nat.
  Hypothesis HB : (1 <= B)%nat.
  Variable w : wty.
  Hypothesis Hw : w <> WFloat.
  Variable src : N.
  Hypothesis Hsrc : src < two32.

  (* encodings of the first k blocks *)
  Fixpoint encB (k : nat) (l : list edge) : list N :=
    match k with
    | O => []
    | S k => enc w src (firstn B l) ++ encB k (skipn B l)
    end.

  Lemma encB_len k : forall l, ok w l -> (length (encB k l) <= 10 * length l)%nat.
  Proof.
    induction k as [|k IH]; intros l H; cbn [encB length]; [lia|].
    rewrite app_length. pose proof (@enc_len w src _ (@ok_first w l B H)) as H1.
    pose proof (IH _ (@ok_skip w l B H)) as H2. rewrite firstn_length in H1. rewrite skipn_length in H2. lia.
  Qed.
  Lemma encB_mono i k l : (i <= k)%nat -> (length (encB i l) <= length (encB k l))%nat.
  Proof.
    revert k l. induction i as [|i IH]; intros k l H; [simpl; lia|].
    destruct k as [|k]; [lia|]. cbn [encB]. rewrite !app_length. specialize (IH k (skipn B l)). lia.
  Qed.
  Lemma encB_S i l : encB (S i) l = encB i l ++ enc w src (block B i l).
  Proof.
    revert l. induction i as [|i IH]; intros l.
    - cbn [encB]. rewrite block_0. now rewrite app_nil_r.
    - change (encB (S (S i)) l) with (enc w src (firstn B l) ++ encB (S i) (skipn B l)).
      rewrite IH, block_S. cbn [encB]. now rewrite app_assoc.
  Qed.

  Lemma wB m off l : ok w l -> near src l ->
    writeBlock compressFirst32 (pd_compressWeight w) m off src l
    = Some (wr m off (enc w src l), (off + length (enc w src l))%nat).
  Proof.
    intros H Hn. apply writeBlock_writes with (near1 := fun s v => (Z.abs (Z.of_N v - Z.of_N s) < 2147483648)%Z); auto.
    - intros. now apply cF_near.
    - intros. now apply pd_cW.
  Qed.

  Lemma compressBlocks_spec a nb k : forall m cur i l,
    (a + 4 * (nb - 1) <= cur)%nat -> (i + k = nb)%nat -> ok w l -> near src l ->
    N.of_nat (cur + length (encB k l) - a) < two32 ->
    exists m', pd_compressBlocks B w k m a 0 cur i src l = Some (m', (cur + length (encB k l))%nat) /\
      (forall b, (b < a + 4 * (i - 1) \/ a + 4 * (nb - 1) <= b < cur \/ cur + length (encB k l) <= b)%nat -> m' b = m b) /\
      (forall j, (j < k)%nat ->
         holds m' (cur + length (encB j l)) (enc w src (block B j l)) /\
         (0 < i + j -> uint_at m' (a + 4 * (i + j - 1)) = cur + length (encB j l) - a)%nat).
  Proof.
    induction k as [|k IH]; intros m cur i l Hcur Hik Hok Hnear Hsz.
    - exists m. simpl. rewrite Nat.add_0_r. repeat split; auto; lia.
    - cbn [pd_compressBlocks]. cbv zeta. rewrite Nat.add_0_r.
      set (m1 := match i with O => m | S i' => store32 m (a + 4 * i') (N.of_nat (cur - a) mod two32) end).
      rewrite wB by (try apply ok_first; try apply near_first; auto).
      set (c0 := enc w src (firstn B l)) in *.
      cbn [encB] in Hsz. fold c0 in Hsz. rewrite app_length in Hsz.
      destruct (IH (wr m1 cur c0) (cur + length c0)%nat (S i) (skipn B l)) as (m' & E & Hfr & Hb).
      { lia. } { lia. } { now apply ok_skip. } { now apply near_skip. } { lia. }
      exists m'. rewrite E. cbn [encB]. fold c0. rewrite app_length, Nat.add_assoc.
      assert (Hm1 : forall b, (b < a + 4 * (i - 1) \/ a + 4 * (nb - 1) <= b)%nat -> m1 b = m b).
      { intros b Hb'. unfold m1. destruct i as [|i']; auto. rewrite store32_wr. apply wr_out.
        unfold le32. cbn [length]. lia. }
      split; [reflexivity|]. split.
      { intros b Hb'. rewrite Hfr by lia. rewrite wr_out by lia. apply Hm1. lia. }
      intros [|j] Hj.
      + cbn [encB length]. rewrite Nat.add_0_r, block_0. split.
        * eapply holds_ext; [|apply holds_wr]. intros b Hb'. apply Hfr. fold c0 in Hb'. lia.
        * intros Hi. rewrite Nat.add_0_r. destruct i as [|i']; [lia|].
          rewrite (@uint_at_store m (a + 4 * (S i' - 1)) (N.of_nat (cur - a) mod two32)).
          -- rewrite N.mod_small by lia. lia.
          -- now apply N.mod_lt.
          -- intros b Hb'. rewrite Hfr by lia. rewrite wr_out by lia. unfold m1.
             now replace (S i' - 1)%nat with i' by lia.
      + destruct (Hb j) as [Hb1 Hb2]; [lia|]. cbn [encB]. fold c0. rewrite app_length, Nat.add_assoc.
        rewrite block_S. split; auto. intros _.
        replace (i + S j - 1)%nat with (S i + j - 1)%nat by lia. rewrite Hb2 by lia. reflexivity.
  Qed.

  (* what the encoder leaves in memory *)
  Definition pos (l : list edge) (i : nat) : nat := (4 * (nblocks B (length l) - 1) + length (encB i l))%nat.
  Definition pd_holds (m : mem) (a : nat) (l : list edge) : Prop :=
    forall i, (i < nblocks B (length l))%nat ->
      holds m (a + pos l i) (enc w src (block B i l)) /\
      pd_finger B m a (length l) i = (a + pos l i)%nat.

  Lemma nblocks_le n : (0 < n)%nat -> (nblocks B n <= n)%nat.
  Proof. intros H. unfold nblocks. pose proof (Nat.div_le_upper_bound (n - 1) B (n - 1)). nia. Qed.

  Lemma pd_compress_spec m a l : ok w l -> near src l -> 14 * N.of_nat (length l) < two32 ->
    exists m' e, pd_compress B w m a 0 src l = Some (m', e) /\ (a <= e)%nat /\
      e = (a + match l with [] => 0 | _ => pos l (nblocks B (length l)) end)%nat /\
      (forall b, (b < a \/ e <= b)%nat -> m' b = m b) /\
      (l <> [] -> forall m2, (forall b, (a <= b < e)%nat -> m2 b = m' b) -> pd_holds m2 a l).
  Proof.
    intros Hok Hnear Hsz. destruct l as [|e0 l0] eqn:El.
    { exists m, a. simpl. rewrite Nat.add_0_r. repeat split; auto; congruence. }
    rewrite <- El in *. assert (Hlen : (0 < length l)%nat) by (subst; simpl; lia).
    unfold pd_compress. destruct l as [|e1 l1]; [discriminate|]. clear El e0 l0.
    set (l := e1 :: l1) in *. set (nb := nblocks B (length l)) in *. cbv zeta.
    pose proof (nblocks_le Hlen) as Hnb. fold nb in Hnb.
    pose proof (@encB_len nb l Hok) as Hel.
    destruct (@compressBlocks_spec a nb nb m (a + 0 + 4 * (nb - 1))%nat 0 l) as (m' & E & Hfr & Hb); auto; try lia.
    rewrite Nat.add_0_r in *.
    exists m', (a + 4 * (nb - 1) + length (encB nb l))%nat. split; [exact E|]. split; [lia|].
    split; [unfold pos; fold nb; lia|].
    split. { intros b Hb'. apply Hfr. lia. }
    intros _ m2 Hm2 i Hi. fold nb in Hi. destruct (Hb i Hi) as [H1 H2].
    pose proof (@encB_mono (S i) nb l ltac:(lia)) as Hmono. rewrite encB_S, app_length in Hmono.
    unfold pos. fold nb. split.
    - eapply holds_ext; [|rewrite Nat.add_assoc; exact H1]. intros b Hb'. apply Hm2. lia.
    - unfold pd_finger. fold nb. destruct i as [|i].
      + simpl. lia.
      + assert (U : uint_at m2 (a + 4 * i) = uint_at m' (a + 4 * i)).
        { unfold uint_at, load32. rewrite !Hm2; auto; lia. }
        rewrite U. specialize (H2 ltac:(lia)). cbn [Nat.add] in H2.
        replace (S i - 1)%nat with i in H2 by lia. rewrite H2. lia.
  Qed.

  (* -- decoding ----------------------------------------------------------------- *)
  Lemma ok_block l i : ok w l -> ok w (block B i l).
  Proof. intros H. apply ok_first, ok_skip, H. Qed.

  Lemma walk_block t m a l i id : ok w l -> l <> [] -> pd_holds m a l -> (i < nblocks B (length l))%nat ->
    walkBlock (pd_eatWeight w) t m (pd_finger B m a (length l) i) src id (pd_count B (length l) i)
    = Some (upto t id (block B i l), all_true t id (block B i l)).
  Proof.
    intros Hok Hne Hm Hi. destruct (Hm i Hi) as [H1 H2]. rewrite H2, <- (block_length HB).
    apply (walkBlock_run w); auto.
    - intros. now apply pd_eW.
    - now apply ok_block.
    - apply block_nonempty; auto. destruct l; simpl; [congruence|lia].
  Qed.
  Lemma read_block m a l i : ok w l -> l <> [] -> pd_holds m a l -> (i < nblocks B (length l))%nat ->
    readBlock (pd_eatWeight w) m (pd_finger B m a (length l) i) src (pd_count B (length l) i)
    = Some (block B i l).
  Proof. intros. unfold readBlock. rewrite walk_block; auto. now rewrite upto_true_edges. Qed.

  Lemma pd_decode_run t m a l : ok w l -> (l <> [] -> pd_holds m a l) ->
    pd_decode B w t m a src (length l)
    = Some (if all_true t 0 (block B 0 l)
            then map (fun i => upto t (i * B) (block B i l)) (seq 0 (ceil_div (length l) B))
            else [upto t 0 (block B 0 l)]).
  Proof.
    intros Hok Hm. destruct l as [|e l'] eqn:El.
    { unfold block. cbn [skipn Nat.mul]. rewrite firstn_nil. cbn [all_true length pd_decode].
      unfold ceil_div. rewrite Nat.div_small by lia. reflexivity. }
    rewrite <- El in *. assert (Hne : l <> []) by (subst; discriminate). specialize (Hm Hne).
    assert (Hlen : (0 < length l)%nat) by (subst; simpl; lia).
    unfold pd_decode. destruct (length l) as [|n'] eqn:En; [lia|]. rewrite <- En in *.
    rewrite walk_block by (auto; unfold nblocks; lia).
    destruct (all_true t 0 (block B 0 l)); auto.
    rewrite for_blocks_some with (g := fun i => upto t (i * B) (block B i l)).
    - rewrite <- nblocks_ceil by auto. f_equal.
      replace (nblocks B (length l)) with (S (nblocks B (length l) - 1)) at 2 by (unfold nblocks; lia).
      reflexivity.
    - intros i Hi. rewrite walk_block by (auto; lia). reflexivity.
  Qed.

  Lemma pd_decode_block_run t m a l i : ok w l -> (l <> [] -> pd_holds m a l) -> (i < ceil_div (length l) B)%nat ->
    pd_decode_block B w t m a src (length l) i = Some (upto t (i * B) (block B i l)).
  Proof.
    intros Hok Hm Hi.
    assert (Hlen : (0 < length l)%nat).
    { destruct l; [|simpl; lia]. unfold ceil_div in Hi. rewrite Nat.div_small in Hi; simpl; lia. }
    assert (Hne : l <> []) by (destruct l; simpl in *; [lia|discriminate]).
    unfold pd_decode_block. destruct (length l) as [|n'] eqn:En; [lia|]. rewrite <- En in *.
    rewrite walk_block; auto. now rewrite nblocks_ceil by auto.
  Qed.

  Lemma fold_concat {E} (red : E -> E -> E) id : (forall x y z, red x (red y z) = red (red x y) z) ->
    (forall x, red id x = x) -> (forall x, red x id = x) ->
    forall ls acc, fold_left red (map (fun l => fold_left red l id) ls) acc = fold_left red (concat ls) acc.
  Proof.
    intros Ha Hl Hr.
    assert (G : forall l acc, red acc (fold_left red l id) = fold_left red l acc).
    { assert (G0 : forall l x acc, red acc (fold_left red l x) = fold_left red l (red acc x)).
      { induction l as [|y l IH]; intros x acc; simpl; auto. now rewrite IH, Ha. }
      intros l acc. now rewrite G0, Hr. }
    induction ls as [|l ls IH]; intros acc; simpl; auto. now rewrite IH, G, fold_left_app.
  Qed.

  Lemma pd_map_reduce_run {E} (f : N -> Z -> E) (red : E -> E -> E) (id : E) m a l :
    (forall x y z, red x (red y z) = red (red x y) z) -> (forall x, red id x = x) -> (forall x, red x id = x) ->
    ok w l -> (l <> [] -> pd_holds m a l) ->
    pd_map_reduce B w f red id m a src (length l)
    = Some (fold_left red (map (fun e => f (fst e) (snd e)) l) id).
  Proof.
    intros Ha Hl Hr Hok Hm. destruct l as [|e l'] eqn:El; [reflexivity|].
    rewrite <- El in *. assert (Hne : l <> []) by (subst; discriminate). specialize (Hm Hne).
    unfold pd_map_reduce. destruct (length l) as [|n'] eqn:En; [subst; discriminate|]. rewrite <- En in *.
    rewrite for_blocks_some with (g := fun i => fold_left red (map (fun e => f (fst e) (snd e)) (block B i l)) id).
    - f_equal. rewrite <- (map_map (fun i => map (fun e : edge => f (fst e) (snd e)) (block B i l)) (fun l => fold_left red l id)).
      rewrite fold_concat by auto. f_equal.
      rewrite <- (map_map (fun i => block B i l) (map (fun e : edge => f (fst e) (snd e)))).
      rewrite <- concat_map. now rewrite concat_blocks.
    - intros i Hi. rewrite read_block by (auto; lia). simpl. f_equal.
      generalize id. induction (block B i l); intros; simpl; auto.
  Qed.

  Lemma pd_filter_run pred m a l : ok w l -> l <> [] -> pd_holds m a l ->
    pd_filter B w pred m a src (length l) = Some (filter (fun e => pred (fst e) (snd e)) l).
  Proof.
    intros Hok Hne Hm. unfold pd_filter.
    rewrite for_blocks_some with (g := fun i => block B i l).
    - cbn [option_map]. f_equal. rewrite concat_filter. now rewrite concat_blocks.
    - intros i Hi. apply read_block; auto. lia.
  Qed.

  (* -- size ---------------------------------------------------------------------- *)
  Lemma restSize l : forall prev, okRest w prev l -> pd_restSize w prev l = Some (N.of_nat (length (encRest w prev l))).
  Proof.
    induction l as [|[v x] l IH]; intros prev H; [reflexivity|].
    destruct H as (H1&H2&H3&H4). cbn [pd_restSize encRest].
    rewrite diff32, compressEdge_writes, pd_cW, IH by auto. rewrite !app_length. f_equal. lia.
  Qed.
  Lemma blockSize l : ok w l -> near src l -> pd_blockSize w src l = Some (N.of_nat (length (enc w src l))).
  Proof.
    destruct l as [|[v x] l]; intros H Hn; [reflexivity|].
    destruct H as (H2&H3&H4). apply Forall_inv in Hn. cbn [pd_blockSize enc].
    rewrite cF_near, pd_cW, restSize by auto. rewrite !app_length. f_equal. lia.
  Qed.
  Lemma sum_sizes l k : fold_left N.add (map (fun i => N.of_nat (length (enc w src (block B i l)))) (seq 0 k)) 0
    = N.of_nat (length (encB k l)).
  Proof.
    induction k as [|k IH]; [reflexivity|].
    rewrite seq_S, map_app, fold_left_app, IH, encB_S, app_length. simpl. lia.
  Qed.
  Lemma pd_compute_size_run l : ok w l -> near src l -> 14 * N.of_nat (length l) < two32 ->
    pd_compute_size B w src l
    = Some (N.of_nat (match l with [] => 0 | _ => pos l (nblocks B (length l)) end)).
  Proof.
    intros Hok Hn Hsz. unfold pd_compute_size. destruct l as [|e l'] eqn:El; [reflexivity|].
    rewrite <- El in *. rewrite for_blocks_some with (g := fun i => N.of_nat (length (enc w src (block B i l)))).
    - rewrite sum_sizes. pose proof (@encB_len (nblocks B (length l)) l Hok) as Hel.
      rewrite N.mod_small by (unfold two32 in *; lia). unfold pos. f_equal. lia.
    - intros i Hi. apply blockSize.
      + now apply ok_first, ok_skip.
      + now apply near_first, near_skip.
  Qed.

  (* -- pack (one block) ------------------------------------------------------------ *)
  Lemma enc_filter_len p l : ok w l -> (length (enc w src (filter (fun e => p (fst e) (snd e)) l)) <= length (enc w src l))%nat.
  Proof.
    intros H. apply (@pack_run w p src Hsrc l (wr (fun _ => 0) 0 (enc w src l)) 0%nat H). apply holds_wr.
  Qed.

  Lemma pd_pack_run pred m a l : ok w l -> near src l -> l <> [] -> (length l <= B)%nat ->
    holds m a (enc w src l) ->
    let kept := filter (fun e => pred (fst e) (snd e)) l in
    exists m', pd_pack B w pred m a src (length l) = Some (m', length kept) /\
      (forall b, (b < a \/ a + length (enc w src l) <= b)%nat -> m' b = m b) /\
      (kept <> [] -> holds m' a (enc w src kept)).
  Proof.
    intros Hok Hn Hne Hlen Hh kept. unfold pd_pack. rewrite (proj2 (Nat.leb_le _ _) Hlen).
    unfold pd_packBlock, readBlock.
    rewrite (walkBlock_run w); auto; [|intros; now apply pd_eW].
    rewrite upto_true_edges. fold kept.
    pose proof (@enc_filter_len pred l Hok) as Hl. fold kept in Hl.
    destruct kept as [|k0 kept'] eqn:Ek.
    - exists m. repeat split; auto; congruence.
    - rewrite <- Ek in *. rewrite wB.
      + eexists. split; [reflexivity|]. split.
        * intros b Hb. apply wr_out. lia.
        * intros _. apply holds_wr.
      + now apply ok_keep.
      + now apply near_filter.
  Qed.

  Lemma block_all {A} (l : list A) : (length l <= B)%nat -> block B 0 l = l.
  Proof. intros H. rewrite block_0. now apply firstn_all2. Qed.
  Lemma nblocks_small n : (0 < n <= B)%nat -> nblocks B n = 1%nat.
  Proof. intros H. unfold nblocks. rewrite Nat.div_small; lia. Qed.
  Lemma pd_holds_small m a l : l <> [] -> (length l <= B)%nat -> holds m a (enc w src l) -> pd_holds m a l.
  Proof.
    intros Hne Hl Hh i Hi. assert (Hlen : (0 < length l)%nat) by (destruct l; simpl; [congruence|lia]).
    rewrite nblocks_small in Hi by lia. assert (i = O) as -> by lia.
    rewrite block_all by auto. unfold pd_finger, pos. rewrite nblocks_small by lia. simpl. rewrite Nat.add_0_r.
    split; auto.
  Qed.

  (* -- iterator ---------------------------------------------------------------------- *)
  Lemma firstn_B {A} (x : A) l : firstn B (x :: l) = x :: firstn (B - 1) l.
  Proof. destruct B; [lia|]. simpl. now rewrite Nat.sub_0_r. Qed.
  Lemma skipn_B {A} (x : A) l : skipn B (x :: l) = skipn (B - 1) l.
  Proof. destruct B; [lia|]. simpl. now rewrite Nat.sub_0_r. Qed.
  Lemma encB_first k l : (0 < k)%nat -> encB k l = enc w src (firstn B l) ++ encB (k - 1) (skipn B l).
  Proof. destruct k; [lia|]. intros _. cbn [encB Nat.sub]. now rewrite Nat.sub_0_r. Qed.
  Lemma encB_nil q : encB q [] = [].
  Proof. induction q; cbn [encB]; auto. rewrite firstn_nil, skipn_nil. auto. Qed.

  Lemma iterRest_run k : forall l m finger ngh proc tl,
    (1 <= proc <= B)%nat -> (length l <= k)%nat ->
    (* the rest of the current block, then the following blocks *)
    okRest w ngh (firstn (B - proc) l) -> ok w (skipn (B - proc) l) ->
    holds m finger (encRest w ngh (firstn (B - proc) l) ++ encB (nblocks B (length (skipn (B - proc) l))) (skipn (B - proc) l) ++ tl) ->
    pd_iterRest B w m src finger ngh proc (length l) = Some l.
  Proof.
    induction k as [|k IH]; intros l m finger ngh proc tl Hp Hk Hok1 Hok2 Hh.
    { destruct l; [reflexivity|simpl in Hk; lia]. }
    destruct l as [|[v x] l']; [reflexivity|]. cbn [length] in Hk. cbn [pd_iterRest length].
    destruct (Nat.eqb_spec proc B) as [->|Hpb].
    - rewrite Nat.sub_diag in *. cbn [firstn skipn encRest app] in *.
      rewrite encB_first in Hh by (unfold nblocks; lia). rewrite firstn_B, skipn_B in Hh. cbn [enc] in Hh. rewrite <- !app_assoc in Hh.
      apply holds_app in Hh as [Hh1 Hh]. apply holds_app in Hh as [Hh2 Hh3].
      destruct Hok2 as (H2&H3&H4).
      rewrite (eatFirstEdge_reads Hsrc H2 Hh1). rewrite pd_eW by auto. rewrite (@eatWeight_reads w _ _ _ H3 Hh2).
      rewrite (IH l' m _ v 1%nat tl); auto; try lia.
      + now apply okRest_first.
      + apply ok_skip. now apply okRest_ok with v.
      + destruct (Nat.le_gt_cases (length l') (B - 1)) as [Hs|Hs].
        * rewrite (skipn_all2 l') in * by lia.
          rewrite encB_nil in *. exact Hh3.
        * assert (Hnb : (nblocks B (length (skipn (B - 1) l')) = nblocks B (length ((v, x) :: l' : list edge)) - 1)%nat).
          { rewrite skipn_length. cbn [length]. rewrite (@nblocks_minus B HB (S (length l'))) by lia.
            replace (S (length l') - B)%nat with (length l' - (B - 1))%nat by lia. lia. }
          rewrite Hnb. exact Hh3.
    - destruct (B - proc)%nat as [|q] eqn:Eq; [lia|]. cbn [firstn skipn encRest] in *.
      destruct Hok1 as (H1&H2&H3&H4). rewrite <- !app_assoc in Hh.
      apply holds_app in Hh as [Hh1 Hh]. apply holds_app in Hh as [Hh2 Hh3].
      rewrite (eatEdge_gap H1 H2 Hh1). rewrite add32 by auto.
      rewrite pd_eW by auto. rewrite (@eatWeight_reads w _ _ _ H3 Hh2).
      assert (Eq' : (B - S proc = q)%nat) by lia.
      rewrite (IH l' m _ v (S proc) tl); auto; try lia; rewrite Eq'; auto.
  Qed.
  Lemma pd_iter_run m a l : ok w l -> l <> [] ->
    holds m (a + 4 * (nblocks B (length l) - 1)) (encB (nblocks B (length l)) l) ->
    pd_iter B w m a src (length l) = Some l.
  Proof.
    intros Hok Hne Hh. destruct l as [|[v x] l']; [congruence|].
    change (length ((v, x) :: l')) with (S (length l')) in *. cbn [pd_iter].
    rewrite encB_first in Hh by (unfold nblocks; lia). rewrite firstn_B, skipn_B in Hh. cbn [enc] in Hh. rewrite <- !app_assoc in Hh.
    apply holds_app in Hh as [Hh1 Hh]. apply holds_app in Hh as [Hh2 Hh3].
    destruct Hok as (H2&H3&H4).
    rewrite (eatFirstEdge_reads Hsrc H2 Hh1). rewrite pd_eW by auto. rewrite (@eatWeight_reads w _ _ _ H3 Hh2).
    rewrite (@iterRest_run (length l') l' m _ v 1%nat []); auto; try lia.
    + now apply okRest_first.
    + apply ok_skip. now apply okRest_ok with v.
    + rewrite app_nil_r. destruct (Nat.le_gt_cases (length l') (B - 1)) as [Hs|Hs].
      * rewrite (skipn_all2 l') in * by lia. rewrite encB_nil in *. exact Hh3.
      * assert (Hnb : (nblocks B (length (skipn (B - 1) l')) = nblocks B (S (length l')) - 1)%nat).
        { rewrite skipn_length. cbn [length]. rewrite (@nblocks_minus B HB (S (length l'))) by lia.
            replace (S (length l') - B)%nat with (length l' - (B - 1))%nat by lia. lia. }
        rewrite Hnb. exact Hh3.
  Qed.
  Lemma pd_holds_contig m a l k : pd_holds m a l -> (k <= nblocks B (length l))%nat ->
    holds m (a + 4 * (nblocks B (length l) - 1)) (encB k l).
  Proof.
    intros Hm. induction k as [|k IH]; intros Hk; [apply holds_nil|].
    rewrite encB_S. apply holds_app. split; [apply IH; lia|].
    destruct (Hm k ltac:(lia)) as [H1 _]. unfold pos in H1. now rewrite <- Nat.add_assoc.
  Qed.
End PD.
