From Coq Require Import Permutation.
From Verif Require Import Base ListUtil GBModel GBProofs SFModel SFSpec.

(* -- stores ------------------------------------------------------------------------------- *)
Lemma put_length {A} off (l arr : list A) : off + length l <= length arr -> length (put off l arr) = length arr.
Proof. intros H. unfold put. rewrite !app_length, firstn_length, skipn_length. lia. Qed.
Lemma put_nth {A} off (l arr : list A) k : off + length l <= length arr ->
  nth_error (put off l arr) k = if (off <=? k) && (k <? off + length l) then nth_error l (k - off) else nth_error arr k.
Proof.
  intros H. unfold put. assert (Hf : length (firstn off arr) = off) by (rewrite firstn_length; lia).
  destruct (Nat.leb_spec off k) as [H1|H1]; simpl.
  - rewrite nth_error_app2 by lia. rewrite Hf. destruct (Nat.ltb_spec k (off + length l)).
    + rewrite nth_error_app1 by lia. reflexivity.
    + rewrite nth_error_app2 by lia. rewrite nth_error_skipn'. f_equal. lia.
  - rewrite nth_error_app1 by lia. now rewrite nth_error_firstn'.
Qed.
Lemma put_cons {A} k (x : A) L out : k + S (length L) <= length out -> put (S k) L (lset out k x) = put k (x :: L) out.
Proof.
  intros H. apply list_ext_nth_error. intros q. rewrite !put_nth by (rewrite ?length_lset; simpl length; lia). simpl length.
  destruct (Nat.leb_spec (S k) q), (Nat.ltb_spec q (S k + length L)), (Nat.leb_spec k q), (Nat.ltb_spec q (k + S (length L))); cbn [andb]; try lia.
  - replace (q - k) with (S (q - S k)) by lia. reflexivity.
  - apply nth_error_lset_other. lia.
  - assert (q = k) as -> by lia. rewrite Nat.sub_diag. apply nth_error_lset_same. lia.
  - apply nth_error_lset_other. lia.
Qed.
Lemma run_stores_place {A} (L : list A) base (st : list (nat * A)) arr :
  (forall k x, In (k, x) st -> base <= k /\ nth_error L (k - base) = Some x) ->
  (forall i, i < length L -> exists x, In (base + i, x) st) ->
  base + length L <= length arr -> run_stores st arr = Some (put base L arr).
Proof.
  intros H1 H2 H3. destruct L as [|d L'] eqn:EL.
  - destruct st as [|[k x] st]; [simpl; f_equal; unfold put; simpl; rewrite Nat.add_0_r; symmetry; apply firstn_skipn|].
    destruct (H1 k x ltac:(now left)) as [_ E]. destruct (k - base); discriminate.
  - rewrite <- EL in *. destruct (@run_stores_consistent A (fun k => nth (k - base) L d) (length arr) st arr eq_refl) as (arr' & E & Hl & HA).
    { intros k x Hin. apply H1 in Hin as [Hk E]. assert (k - base < length L) by (apply nth_error_Some; congruence). split; [lia|].
      symmetry. now apply nth_error_nth. }
    rewrite E. f_equal. apply list_ext_nth_error. intros k. rewrite put_nth by auto. destruct (Nat.ltb_spec k (length arr)) as [Hk|Hk].
    + destruct (HA k Hk) as [[Ha (x & Hx)]|[Ha Hno]].
      * destruct (H1 _ _ Hx) as [Hb Hn]. assert (k - base < length L) by (apply nth_error_Some; congruence).
        rewrite (proj2 (Nat.leb_le _ _) Hb), (proj2 (Nat.ltb_lt _ _)) by lia. simpl. rewrite Ha. symmetry. apply nth_error_nth'. lia.
      * rewrite Ha. destruct (Nat.leb_spec base k), (Nat.ltb_spec k (base + length L)); simpl; auto. exfalso.
        destruct (H2 (k - base) ltac:(lia)) as (x & Hx). replace (base + (k - base)) with k in Hx by lia. now apply (Hno x).
    + assert (nth_error arr' k = None) as -> by (apply nth_error_None; lia).
      rewrite (proj2 (Nat.ltb_ge k (base + length L))) by lia. rewrite Bool.andb_false_r. symmetry. apply nth_error_None. lia.
Qed.
Lemma in_combine_seq {A} (L : list A) : forall base k x, In (k, x) (combine (seq base (length L)) L) <-> base <= k /\ nth_error L (k - base) = Some x.
Proof.
  induction L as [|y L IH]; intros base k x; simpl.
  - split; [tauto|]. intros [_ E]. destruct (k - base); discriminate.
  - rewrite IH. split.
    + intros [E|[H E]]; [injection E as <- <-; rewrite Nat.sub_diag; auto|]. split; [lia|]. replace (k - base) with (S (k - S base)) by lia. exact E.
    + intros [H E]. destruct (Nat.eq_dec k base) as [->|]; [rewrite Nat.sub_diag in E; injection E as ->; now left|].
      right. split; [lia|]. replace (k - base) with (S (k - S base)) in E by lia. exact E.
Qed.
Lemma run_stores_combine {A} (L : list A) base st arr : Permutation st (combine (seq base (length L)) L) ->
  base + length L <= length arr -> run_stores st arr = Some (put base L arr).
Proof.
  intros Hp Hl. apply run_stores_place; auto.
  - intros k x Hin. apply (Permutation_in _ Hp) in Hin. now apply in_combine_seq.
  - intros i Hi. destruct (nth_error L i) as [x|] eqn:E; [|apply nth_error_None in E; lia]. exists x.
    apply (Permutation_in _ (Permutation_sym Hp)), in_combine_seq. split; [lia|]. now replace (base + i - base) with i by lia.
Qed.
Lemma run_stores_app {A} (s1 s2 : list (nat * A)) : forall arr, run_stores (s1 ++ s2) arr = match run_stores s1 arr with None => None | Some a => run_stores s2 a end.
Proof. induction s1 as [|[k x] s1 IH]; intros arr; simpl; auto. destruct (k <? length arr); auto. Qed.
Lemma put_all {A} (L arr : list A) : length arr = length L -> put 0 L arr = L.
Proof. intros H. unfold put. simpl. rewrite <- H, skipn_all. apply app_nil_r. Qed.

Lemma sum_before_S f i : sum_before f (S i) = sum_before f i + f i.
Proof. unfold sum_before. rewrite seq_S, map_app. simpl. rewrite list_sum_app. simpl. lia. Qed.
Lemma sum_before_ext f g i : (forall j, j < i -> f j = g j) -> sum_before f i = sum_before g i.
Proof. intros H. unfold sum_before. f_equal. apply map_ext_in. intros j Hj. apply in_seq in Hj. apply H. lia. Qed.
Lemma combine_app' {A B} (a1 a2 : list A) (b1 b2 : list B) : length a1 = length b1 -> combine (a1 ++ a2) (b1 ++ b2) = combine a1 b1 ++ combine a2 b2.
Proof. revert b1; induction a1; intros [|y b1] H; simpl in *; try discriminate; auto. f_equal. auto. Qed.
Lemma flat_map_snoc {A} (f : nat -> list A) l : flat_map f (seq 0 (S l)) = flat_map f (seq 0 l) ++ f l.
Proof. rewrite seq_S, flat_map_app. simpl. now rewrite app_nil_r. Qed.
Lemma flat_map_sum {A} (f : nat -> list A) l : length (flat_map f (seq 0 l)) = sum_before (fun i => length (f i)) l.
Proof. induction l; auto. rewrite flat_map_snoc, app_length, IHl, sum_before_S. reflexivity. Qed.
(* the segments one after the other *)
Lemma segments {A} (seg : nat -> list A) off l :
  flat_map (fun i => combine (seq (off + sum_before (fun i => length (seg i)) i) (length (seg i))) (seg i)) (seq 0 l)
  = combine (seq off (length (flat_map seg (seq 0 l)))) (flat_map seg (seq 0 l)).
Proof.
  induction l as [|l IH]; auto. rewrite !flat_map_snoc, IH, app_length, seq_app, combine_app' by now rewrite seq_length.
  now rewrite flat_map_sum.
Qed.

(* -- blocks ----------------------------------------------------------------------------- *)
Definition seg {A} (a : list A) (s len : nat) : list A := firstn len (skipn s a).
Lemma seg_S {A} (a : list A) s len x : nth_error a s = Some x -> seg a s (S len) = x :: seg a (S s) len.
Proof.
  unfold seg. revert s; induction a as [|y a IH]; intros [|s] H; simpl in *; try discriminate; [now injection H as ->|]. now apply IH.
Qed.
Lemma seg_ext {A} (a b : list A) s len : (forall j, s <= j < s + len -> nth_error a j = nth_error b j) -> seg a s len = seg b s len.
Proof.
  intros H. unfold seg. apply list_ext_nth_error. intros k. destruct (Nat.ltb_spec k len).
  - rewrite !nth_error_firstn', !nth_error_skipn' by auto. apply H. lia.
  - transitivity (@None A); [|symmetry]; apply nth_error_None; rewrite firstn_length; lia.
Qed.
Lemma seg_nth {A} (a : list A) s len k : k < len -> nth_error (seg a s len) k = nth_error a (s + k).
Proof. intros H. unfold seg. now rewrite nth_error_firstn', nth_error_skipn'. Qed.
Lemma seg_length {A} (a : list A) s len : s + len <= length a -> length (seg a s len) = len.
Proof. intros H. unfold seg. rewrite firstn_length, skipn_length. lia. Qed.

Lemma firstn_skipn_add {A} (a : list A) k c : firstn k a ++ firstn c (skipn k a) = firstn (k + c) a.
Proof. revert a; induction k as [|k IH]; intros a; simpl; auto. destruct a; simpl; [now rewrite firstn_nil|]. f_equal. apply IH. Qed.

Section Filter.
  Context {A : Type}.
  Variable p : A -> bool.

  Lemma filter_seq_loop_ok cnt : forall i k inn out, i + cnt <= length inn ->
    k + length (filter p (seg inn i cnt)) <= length out ->
    filter_seq_loop p cnt i k inn out = Some (k + length (filter p (seg inn i cnt)), put k (filter p (seg inn i cnt)) out).
  Proof.
    induction cnt as [|cnt IH]; intros i k inn out Hi Hk; cbn [filter_seq_loop].
    - unfold seg. simpl. rewrite Nat.add_0_r. unfold put. simpl. now rewrite Nat.add_0_r, firstn_skipn.
    - destruct (nth_error inn i) as [x|] eqn:E; [|apply nth_error_None in E; lia]. rewrite (@seg_S _ _ _ _ _ E) in *. simpl in *.
      destruct (p x); simpl in *.
      + rewrite (proj2 (Nat.ltb_lt _ _)) by lia. rewrite IH by (rewrite ?length_lset; lia). f_equal. f_equal; [lia|].
        apply put_cons. lia.
      + now apply IH; lia.
  Qed.
  Lemma pack_loop_ok cnt : forall j k a, k <= j -> j + cnt <= length a ->
    pack_loop p cnt j k a = Some (k + length (filter p (seg a j cnt)), put k (filter p (seg a j cnt)) a).
  Proof.
    induction cnt as [|cnt IH]; intros j k a Hk Hj; cbn [pack_loop].
    - unfold seg. simpl. rewrite Nat.add_0_r. unfold put. simpl. now rewrite Nat.add_0_r, firstn_skipn.
    - destruct (nth_error a j) as [x|] eqn:E; [|apply nth_error_None in E; lia]. rewrite (@seg_S _ _ _ _ _ E).
      assert (Hlen : length (filter p (seg a (S j) cnt)) <= cnt) by (rewrite filter_len_le, seg_length; lia).
      simpl. destruct (p x); simpl.
      + rewrite (proj2 (Nat.ltb_lt _ _)) by lia. rewrite IH by (rewrite ?length_lset; lia).
        assert (Es : seg (lset a k x) (S j) cnt = seg a (S j) cnt) by (apply seg_ext; intros q Hq; apply nth_error_lset_other; lia).
        rewrite Es. f_equal. f_equal; [lia|].
        apply put_cons. lia.
      + now apply IH; lia.
  Qed.

  Definition blk (a : list A) (n b i : nat) : list A := seg a (i * b) (Nat.min (i * b + b) n - i * b).
  Lemma pack_blocks_ok b n order : forall a sums, n <= length a -> NoDup order -> (forall i, In i order -> i * b <= n) ->
    exists a' sums', pack_blocks p b n order a sums = Some (a', sums') /\ length a' = length a /\
      (forall i, In i order -> sums' i = length (filter p (blk a n b i)) /\ seg a' (i * b) (sums' i) = filter p (blk a n b i)) /\
      (forall i, ~ In i order -> sums' i = sums i) /\
      (forall q, (forall i, In i order -> ~ (i * b <= q < Nat.min (i * b + b) n)) -> nth_error a' q = nth_error a q).
  Proof.
    induction order as [|i order IH]; intros a sums Hn Hnd Hb; cbn [pack_blocks].
    - exists a, sums. split; [auto|]. split; [auto|]. split; [intros ? []|]. split; auto.
    - inversion Hnd as [|x l Hni Hnd']; subst. assert (Hi : i * b <= n) by (apply Hb; now left).
      rewrite pack_loop_ok by lia. set (F := filter p (seg a (i * b) (Nat.min (i * b + b) n - i * b))) in *.
      assert (HF : length F <= Nat.min (i * b + b) n - i * b) by (unfold F; rewrite filter_len_le, seg_length; lia).
      replace (i * b + length F - i * b) with (length F) by lia.
      destruct (IH (put (i * b) F a) (fset sums i (length F))) as (a' & sums' & E & Hl & H1 & H2 & H3); auto.
      { rewrite put_length; lia. }
      { intros j Hj. apply Hb. now right. }
      exists a', sums'. split; [exact E|]. split; [rewrite Hl, put_length; lia|].
      (* the blocks are disjoint *)
      assert (Hdis : forall j q, j <> i -> j * b <= q < Nat.min (j * b + b) n -> ~ (i * b <= q < Nat.min (i * b + b) n)).
      { intros j q Hji Hq Hq'. destruct (Nat.lt_total j i) as [H|[H|H]]; [|lia|]; nia. }
      assert (Hblk : forall j, j <> i -> blk (put (i * b) F a) n b j = blk a n b j).
      { intros j Hj. apply seg_ext. intros q Hq. rewrite put_nth by lia. pose proof (Hdis j q Hj ltac:(lia)).
        destruct (Nat.leb_spec (i * b) q), (Nat.ltb_spec q (i * b + length F)); simpl; auto. lia. }
      split; [|split].
      + intros j [<-|Hj].
        * rewrite H2 by auto. rewrite fset_same. change (filter p (blk a n b i)) with F. split; auto. apply list_ext_nth_error. intros q. destruct (Nat.ltb_spec q (length F)).
          -- rewrite seg_nth by auto. rewrite H3.
             ++ rewrite put_nth by lia. rewrite (proj2 (Nat.leb_le _ _)), (proj2 (Nat.ltb_lt _ _)) by lia. simpl. f_equal. lia.
             ++ intros j Hj Hq. apply (Hdis j (i * b + q)); auto; [intros ->; auto|lia].
          -- transitivity (@None A); [|symmetry]; apply nth_error_None; [unfold seg; rewrite firstn_length; lia|lia].
        * assert (j <> i) by (intros ->; auto). destruct (H1 j Hj) as [A1 A2]. rewrite <- (Hblk j) by auto. auto.
      + intros j Hj. rewrite H2 by (intros Hx; apply Hj; now right). apply fset_other. intros ->. apply Hj. now left.
      + intros q Hq. rewrite H3 by (intros j Hj; apply Hq; now right). rewrite put_nth by lia.
        specialize (Hq i ltac:(now left)). destruct (Nat.leb_spec (i * b) q), (Nat.ltb_spec q (i * b + length F)); simpl; auto. lia.
  Qed.

  Lemma read_calls_app (a : list A) m1 : forall m2, read_calls a (m1 ++ m2) =
    match read_calls a m1, read_calls a m2 with Some x, Some y => Some (x ++ y) | _, _ => None end.
  Proof.
    induction m1 as [|[d s] m1 IH]; intros m2; simpl.
    - destruct (read_calls a m2); auto.
    - rewrite IH. destruct (nth_error a s), (read_calls a m1), (read_calls a m2); auto.
  Qed.
  Lemma read_calls_seg (a : list A) d s len : forall base, s + base + len <= length a ->
    read_calls a (map (fun j => (d + j, s + j)) (seq base len)) = Some (combine (seq (d + base) len) (seg a (s + base) len)).
  Proof.
    induction len as [|len IH]; intros base H; auto. cbn [seq map read_calls].
    destruct (nth_error a (s + base)) as [x|] eqn:E; [|apply nth_error_None in E; lia]. rewrite IH by lia.
    rewrite (@seg_S _ _ _ _ _ E). simpl. replace (d + S base) with (S (d + base)) by lia. replace (s + S base) with (S (s + base)) by lia. reflexivity.
  Qed.
  Lemma block_moves_ok b l off (a : list A) sums segs : (forall i, i < l -> i * b + sums i <= length a /\ seg a (i * b) (sums i) = segs i /\ sums i = length (segs i)) ->
    read_calls a (block_moves b l off sums) = Some (combine (seq off (length (flat_map segs (seq 0 l)))) (flat_map segs (seq 0 l))).
  Proof.
    intros H. rewrite <- segments. unfold block_moves.
    assert (G : forall k, k <= l -> read_calls a (flat_map (fun i => map (fun j => (off + sum_before sums i + j, i * b + j)) (seq 0 (sums i))) (seq 0 k))
      = Some (flat_map (fun i => combine (seq (off + sum_before (fun i => length (segs i)) i) (length (segs i))) (segs i)) (seq 0 k))).
    { induction k as [|k IH]; intros Hk; auto. rewrite !flat_map_snoc, read_calls_app, IH by lia.
      destruct (H k ltac:(lia)) as (H1 & H2 & H3). rewrite read_calls_seg by lia. rewrite !Nat.add_0_r, H2.
      rewrite (@sum_before_ext sums (fun i => length (segs i)) k) by (intros j Hj; apply H; lia). now rewrite H3. }
    now apply G.
  Qed.

  Lemma num_blocks_bound n b i : 0 < b -> i < num_blocks n b -> i * b < n.
  Proof.
    unfold num_blocks. intros Hb. destruct (Nat.eqb_spec n 0); [lia|]. intros Hi.
    assert (i * b <= (n - 1) / b * b) by nia. pose proof (Nat.mul_div_le (n - 1) b ltac:(lia)). lia.
  Qed.
  Lemma num_blocks_cover n b : 0 < b -> n <= num_blocks n b * b.
  Proof.
    unfold num_blocks. intros Hb. destruct (Nat.eqb_spec n 0); [lia|].
    pose proof (Nat.div_mod (n - 1) b ltac:(lia)). pose proof (Nat.mod_upper_bound (n - 1) b ltac:(lia)). nia.
  Qed.
  Lemma blks (a : list A) n b i : n <= length a -> flat_map (blk a n b) (seq 0 i) = firstn (Nat.min (i * b) n) a.
  Proof.
    intros Hn. induction i as [|i IH]; [simpl; destruct n; reflexivity|]. rewrite flat_map_snoc, IH. unfold blk, seg.
    destruct (Nat.le_gt_cases (i * b) n).
    - replace (Nat.min (i * b) n) with (i * b) by lia. replace (Nat.min (S i * b) n) with (i * b + (Nat.min (i * b + b) n - i * b)) by lia.
      apply firstn_skipn_add.
    - replace (Nat.min (i * b + b) n - i * b) with 0 by lia. rewrite app_nil_r. f_equal. lia.
  Qed.
  Lemma filter_flat_map {B} (f : nat -> list B) (q : B -> bool) l : flat_map (fun i => filter q (f i)) l = filter q (flat_map f l).
  Proof. induction l; simpl; auto. now rewrite filter_app, IHl. Qed.
  Lemma filter_blks (a : list A) n b : 0 < b -> n <= length a -> flat_map (fun i => filter p (blk a n b i)) (seq 0 (num_blocks n b)) = filter p (firstn n a).
  Proof.
    intros Hb Hn. rewrite filter_flat_map, blks by auto. f_equal. f_equal. pose proof (num_blocks_cover n Hb). lia.
  Qed.

  Lemma blocked_calls b order inn n off : 0 < b -> n <= length inn -> Permutation order (seq 0 (num_blocks n b)) ->
    exists a sums, pack_blocks p b n order inn (fun _ => 0) = Some (a, sums) /\ length a = length inn /\
      read_calls a (block_moves b (num_blocks n b) off sums) = Some (combine (seq off (length (filter p (firstn n inn)))) (filter p (firstn n inn))) /\
      sum_before sums (num_blocks n b) = length (filter p (firstn n inn)).
  Proof.
    intros Hb Hn Hp. destruct (@pack_blocks_ok b n order inn (fun _ => 0)) as (a & sums & E & Hl & H1 & _ & _); auto.
    { apply (Permutation_NoDup (Permutation_sym Hp)), seq_NoDup. }
    { intros i Hi. apply (Permutation_in _ Hp), in_seq in Hi. pose proof (@num_blocks_bound n b i Hb). lia. }
    assert (Hin : forall i, i < num_blocks n b -> In i order) by (intros i Hi; apply (Permutation_in _ (Permutation_sym Hp)), in_seq; lia).
    exists a, sums. split; auto. split; auto. split.
    - rewrite (@block_moves_ok b _ off a sums (fun i => filter p (blk inn n b i))); [now rewrite filter_blks|].
      intros i Hi. destruct (H1 i (Hin i Hi)) as [A1 A2]. split; [|auto]. rewrite A1.
      assert (length (filter p (blk inn n b i)) <= Nat.min (i * b + b) n - i * b).
      { rewrite filter_len_le. unfold blk, seg. rewrite firstn_length. lia. }
      pose proof (@num_blocks_bound n b i Hb Hi). lia.
    - rewrite <- filter_blks with (b := b) by auto. rewrite flat_map_sum. apply sum_before_ext. intros i Hi. now apply H1, Hin.
  Qed.

  Lemma filterf_ok b order shuffle inn out : 0 < b -> Permutation order (seq 0 (num_blocks (length inn) b)) -> reorders shuffle ->
    length (filter p inn) <= length out ->
    filterf p b order shuffle inn out (length inn) = Some (length (filter p inn), filter p inn ++ skipn (length (filter p inn)) out).
  Proof.
    intros Hb Hp Hs Hl. unfold filterf. destruct (Nat.ltb_spec (length inn) b).
    - unfold filter_seq. assert (E : seg inn 0 (length inn) = inn) by (unfold seg; simpl; apply firstn_all).
      rewrite filter_seq_loop_ok by (rewrite ?E; lia). rewrite E. reflexivity.
    - destruct (@blocked_calls b order inn (length inn) 0 Hb (le_n _) Hp) as (a & sums & E1 & E2 & E3 & E4).
      rewrite E1, E3, E4. rewrite firstn_all in *. rewrite (@run_stores_combine A (filter p inn) 0 _ out (Hs _)) by auto. reflexivity.
  Qed.
  Lemma out_loop_ok cnt : forall i k inn, i + cnt <= length inn ->
    out_loop p cnt i k inn = Some (combine (seq k (length (filter p (seg inn i cnt)))) (filter p (seg inn i cnt))).
  Proof.
    induction cnt as [|cnt IH]; intros i k inn Hi; cbn [out_loop]; auto.
    destruct (nth_error inn i) as [x|] eqn:E; [|apply nth_error_None in E; lia]. rewrite (@seg_S _ _ _ _ _ E). simpl.
    rewrite !IH by lia. destruct (p x); reflexivity.
  Qed.
  Lemma filterf_out_ok b order shuffle inn off : 0 < b -> Permutation order (seq 0 (num_blocks (length inn) b)) -> reorders shuffle ->
    exists calls, filterf_out p b order shuffle inn (length inn) off = Some (length (filter p inn), calls) /\
      Permutation calls (combine (seq off (length (filter p inn))) (filter p inn)).
  Proof.
    intros Hb Hp Hs. unfold filterf_out. destruct (Nat.ltb_spec (length inn) b).
    - rewrite out_loop_ok by lia. assert (E : seg inn 0 (length inn) = inn) by (unfold seg; simpl; apply firstn_all). rewrite E. simpl.
      eexists. split; [|reflexivity]. rewrite combine_length, seq_length. now rewrite Nat.min_id.
    - destruct (@blocked_calls b order inn (length inn) off Hb (le_n _) Hp) as (a & sums & E1 & E2 & E3 & E4).
      rewrite E1, E3, E4. rewrite firstn_all in *. simpl. eexists. split; [reflexivity|]. apply Hs.
  Qed.
End Filter.

Section FilterIndex.
  Context {A : Type}.
  Variable f : A -> nat -> bool.

  (* the elements at the positions js that satisfy the flag *)
  Definition picked (fl : nat -> bool) (inn : list A) (js : list nat) : list A :=
    flat_map (fun j => match nth_error inn j with Some x => [x] | None => [] end) (filter fl js).
  Lemma serial_stores_ok fl inn js : forall k, (forall j, In j js -> j < length inn) ->
    length (picked fl inn js) = length (filter fl js) /\ serial_stores fl inn k js = combine (seq k (length (picked fl inn js))) (picked fl inn js).
  Proof.
    unfold picked. induction js as [|j js IH]; intros k H; simpl; auto.
    destruct (fl j); simpl; [|apply IH; intros; apply H; now right].
    destruct (nth_error inn j) as [x|] eqn:E; [|apply nth_error_None in E; specialize (H j ltac:(now left)); lia].
    destruct (IH (S k) ltac:(intros; apply H; now right)) as [I1 I2]. simpl. rewrite I2. split; auto.
  Qed.
  Lemma fi_blocks n b : 0 < b -> flat_map (fi_block b n) (seq 0 (num_blocks n b)) = seq 0 n.
  Proof.
    intros Hb. assert (G : forall i, flat_map (fi_block b n) (seq 0 i) = seq 0 (Nat.min (i * b) n)).
    { induction i as [|i IH]; [reflexivity|]. rewrite flat_map_snoc, IH. unfold fi_block. destruct (Nat.le_gt_cases (i * b) n).
      - replace (Nat.min (i * b) n) with (i * b) by lia. replace (Nat.min (S i * b) n) with (i * b + (Nat.min (i * b + b) n - i * b)) by lia.
        rewrite seq_app. reflexivity.
      - replace (Nat.min (i * b + b) n - i * b) with 0 by lia. rewrite app_nil_r. f_equal. lia. }
    rewrite G. f_equal. pose proof (num_blocks_cover n Hb). lia.
  Qed.
  Lemma picked_flat fl inn (g : nat -> list nat) l : flat_map (fun i => picked fl inn (g i)) l = picked fl inn (flat_map g l).
  Proof. unfold picked. induction l; simpl; auto. now rewrite filter_app, flat_map_app, IHl. Qed.
  Lemma filter_index_ok b shuffle junk inn : 0 < b -> reorders shuffle ->
    filter_index f b shuffle junk inn = Some (map fst (filter (fun xj => f (fst xj) (snd xj)) (combine inn (seq 0 (length inn))))).
  Proof.
    intros Hb Hs. set (n := length inn). set (fl := fi_flag f inn).
    set (segs := fun i => picked fl inn (fi_block b n i)). set (l := num_blocks n b).
    assert (Hlt : forall i j, In j (fi_block b n i) -> j < length inn) by (intros i j Hj; apply in_seq in Hj; unfold n in *; lia).
    assert (Hsum : forall i, fi_sum f inn b i = length (segs i)).
    { intros i. symmetry. apply (@serial_stores_ok fl inn (fi_block b n i) 0). apply Hlt. }
    assert (Hst : fi_stores f inn b = combine (seq 0 (length (flat_map segs (seq 0 l)))) (flat_map segs (seq 0 l))).
    { rewrite <- segments. unfold fi_stores. fold n. fold l. apply flat_map_ext. intros i. fold fl.
      destruct (@serial_stores_ok fl inn (fi_block b n i) (sum_before (fi_sum f inn b) i)) as [_ ->]; [apply Hlt|].
      simpl. now rewrite (@sum_before_ext (fi_sum f inn b) (fun i => length (segs i)) i) by auto. }
    assert (Hfin : flat_map segs (seq 0 l) = map fst (filter (fun xj => f (fst xj) (snd xj)) (combine inn (seq 0 n)))).
    { unfold segs. rewrite picked_flat. unfold l. rewrite fi_blocks by auto. unfold picked, fl, fi_flag, n.
      assert (G : forall l1 l2 : list A, inn = l1 ++ l2 ->
        flat_map (fun j => match nth_error inn j with Some x => [x] | None => [] end)
          (filter (fun j => match nth_error inn j with Some x => f x j | None => false end) (seq (length l1) (length l2)))
        = map fst (filter (fun xj => f (fst xj) (snd xj)) (combine l2 (seq (length l1) (length l2))))).
      { intros l1 l2; revert l1. induction l2 as [|x l2 IH]; intros l1 E; auto. specialize (IH (l1 ++ [x])). rewrite app_length in IH. simpl length in IH.
        rewrite Nat.add_1_r in IH. rewrite <- app_assoc in IH. specialize (IH E). cbn [length seq combine filter].
        assert (En : nth_error inn (length l1) = Some x) by (rewrite E, nth_error_app2, Nat.sub_diag by auto; reflexivity).
        rewrite En. cbn [fst snd]. destruct (f x (length l1)); cbn [flat_map map fst]; rewrite ?En; rewrite IH; reflexivity. }
      apply (G [] inn eq_refl). }
    unfold filter_index. fold n. fold l.
    assert (El : sum_before (fi_sum f inn b) l = length (flat_map segs (seq 0 l))) by (rewrite flat_map_sum; apply sum_before_ext; auto).
    rewrite (run_stores_combine (flat_map segs (seq 0 l)) 0).
    - rewrite El, put_all by apply repeat_length. now rewrite Hfin.
    - rewrite <- Hst. apply Hs.
    - rewrite repeat_length, El. reflexivity.
  Qed.
End FilterIndex.

(* -- counting sort --------------------------------------------------------------------- *)
Section CountSort.
  Context {A : Type}.
  Variable get_key : nat -> nat.
  Variable width K : nat.
  Hypothesis HK : K <= width.

  Definition cntk (js : list nat) (k : nat) : nat := length (filter (fun j => get_key j =? k) js).
  Lemma cntk_app l1 l2 k : cntk (l1 ++ l2) k = cntk l1 k + cntk l2 k.
  Proof. unfold cntk. now rewrite filter_app, app_length. Qed.
  Lemma sum_cntk js k : sum_before (cntk js) k = before get_key js k.
  Proof.
    unfold before. induction k as [|k IH]; [unfold sum_before; simpl; symmetry; induction js; auto|].
    rewrite sum_before_S, IH. clear. unfold cntk. induction js as [|j js IH]; auto. simpl.
    destruct (Nat.ltb_spec (get_key j) k), (Nat.eqb_spec (get_key j) k), (Nat.ltb_spec (get_key j) (S k)); simpl; lia.
  Qed.
  Lemma by_key_pos l1 j l2 : get_key j < K ->
    nth_error (by_key get_key K (l1 ++ j :: l2)) (sum_before (cntk (l1 ++ j :: l2)) (get_key j) + cntk l1 (get_key j)) = Some j.
  Proof.
    intros Hj. unfold by_key. set (js := l1 ++ j :: l2). replace K with (get_key j + S (K - S (get_key j))) by lia.
    rewrite seq_app, flat_map_app. simpl seq. simpl flat_map.
    assert (E : length (flat_map (fun k => filter (fun j => get_key j =? k) js) (seq 0 (get_key j))) = sum_before (cntk js) (get_key j)) by apply flat_map_sum.
    rewrite nth_error_app2 by lia. rewrite E. replace (sum_before _ _ + _ - _) with (cntk l1 (get_key j)) by lia.
    assert (El : filter (fun j0 => get_key j0 =? get_key j) js = filter (fun j0 => get_key j0 =? get_key j) l1 ++ j :: filter (fun j0 => get_key j0 =? get_key j) l2).
    { unfold js. rewrite filter_app. simpl. now rewrite Nat.eqb_refl. }
    rewrite El, <- app_assoc. unfold cntk. rewrite nth_error_app2, Nat.sub_diag by lia. reflexivity.
  Qed.
  Lemma in_by_key k js j : In j (by_key get_key k js) <-> In j js /\ get_key j < k.
  Proof.
    unfold by_key. rewrite in_flat_map. split.
    - intros (t & Ht & Hj). apply filter_In in Hj as [Hj E]. apply Nat.eqb_eq in E. apply in_seq in Ht. split; auto. lia.
    - intros [Hj Hk]. exists (get_key j). split; [apply in_seq; lia|]. apply filter_In. split; auto. apply Nat.eqb_refl.
  Qed.
  Lemma by_key_NoDup k js : NoDup js -> NoDup (by_key get_key k js).
  Proof.
    intros H. induction k as [|k IH]; [constructor|]. unfold by_key. rewrite flat_map_snoc. apply NoDup_app_iff. split; [exact IH|].
    split; [now apply NoDup_filter'|]. intros x Hx Hx'. apply in_by_key in Hx as [_ Hx]. apply filter_In in Hx' as [_ Hx']. apply Nat.eqb_eq in Hx'. lia.
  Qed.
  Lemma by_key_length js : (forall j, In j js -> get_key j < K) -> length (by_key get_key K js) = length js.
  Proof.
    intros H. unfold by_key. rewrite flat_map_sum. change (fun i => length (filter (fun j => get_key j =? i) js)) with (cntk js).
    rewrite sum_cntk. unfold before. rewrite filter_all; auto. intros j Hj. apply Nat.ltb_lt. auto.
  Qed.

  Lemma cs_count_ok cnt : forall j offsets, length offsets = K -> (forall i, j <= i < j + cnt -> get_key i < K) ->
    exists o, cs_count get_key width cnt j offsets = Some o /\ length o = K /\ forall k, k < K -> nth k o 0 = nth k offsets 0 + cntk (seq j cnt) k.
  Proof.
    induction cnt as [|cnt IH]; intros j offsets Hl Hk; cbn [cs_count].
    - exists offsets. repeat split; auto.
    - assert (Hj : get_key j < K) by (apply Hk; lia). rewrite Nat.mod_small by lia. rewrite (proj2 (Nat.ltb_lt _ _)) by lia.
      destruct (IH (S j) (lset offsets (get_key j) (nth (get_key j) offsets 0 + 1))) as (o & E & Ho & H1); [now rewrite length_lset|intros; apply Hk; lia|].
      exists o. split; auto. split; auto. intros k Hk'. rewrite H1 by auto. rewrite nth_lset, Hl. unfold cntk. cbn [seq filter].
      rewrite (proj2 (Nat.ltb_lt _ _) Hj). rewrite Bool.andb_true_r. destruct (Nat.eqb_spec (get_key j) k) as [<-|]; simpl length; lia.
  Qed.
  Lemma cs_scan_ok cnt : forall i cbase offsets counts c, length offsets = K -> i + cnt = K -> cbase + K <= length counts ->
    (forall k, i <= k < K -> nth k offsets 0 = c k) ->
    exists o, cs_scan cnt i (sum_before c i) cbase offsets counts = Some (o, put (cbase + i) (map (sum_before c) (seq i cnt)) counts) /\
      length o = K /\ forall k, k < K -> nth k o 0 = if i <=? k then sum_before c (S k) else nth k offsets 0.
  Proof.
    induction cnt as [|cnt IH]; intros i cbase offsets counts c Hl Hi Hc Ho; cbn [cs_scan].
    - exists offsets. split; [|split; auto].
      + f_equal. f_equal. unfold put. simpl. rewrite Nat.add_0_r. symmetry. apply firstn_skipn.
      + intros k Hk. destruct (Nat.leb_spec i k); auto. lia.
    - rewrite (proj2 (Nat.ltb_lt _ _)) by lia. rewrite Ho by lia. rewrite <- sum_before_S.
      destruct (IH (S i) cbase (lset offsets i (sum_before c (S i))) (lset counts (cbase + i) (sum_before c i)) c) as (o & E & Hlo & H1).
      { now rewrite length_lset. } { lia. } { now rewrite length_lset. }
      { intros k Hk. rewrite nth_lset_other by lia. apply Ho. lia. }
      exists o. split; [|split; auto].
      + rewrite E. f_equal. f_equal. cbn [seq map]. rewrite Nat.add_succ_r. apply put_cons. rewrite map_length, seq_length. lia.
      + intros k Hk. rewrite H1 by auto. destruct (Nat.leb_spec (S i) k), (Nat.leb_spec i k); auto; try lia.
        * assert (k = i) as -> by lia. rewrite nth_lset_same by lia. reflexivity.
        * rewrite nth_lset_other by lia. reflexivity.
  Qed.

  (* the stores of the placing loop *)
  Fixpoint place_stores (js : list nat) (base : nat -> nat) (start : nat) (inn : list A) (cnt : nat) : list (nat * A) :=
    match cnt with
    | 0 => []
    | S j => match nth_error inn (j + start) with
             | Some x => [(base (get_key (j + start)) + cntk (seq start j) (get_key (j + start)) + start, x)]
             | None => [] end ++ place_stores js base start inn j
    end.
  Lemma cs_place_ok js base start inn cnt : forall offsets out, length offsets = K -> start + cnt <= length inn ->
    (forall i, start <= i < start + cnt -> get_key i < K) ->
    (forall k, k < K -> nth k offsets 0 = base k + cntk (seq start cnt) k) ->
    (forall k x, In (k, x) (place_stores js base start inn cnt) -> k < length out) ->
    cs_place get_key width cnt start inn offsets out = run_stores (place_stores js base start inn cnt) out.
  Proof.
    induction cnt as [|j IH]; intros offsets out Hl Hi Hk Ho Hb; auto. cbn [cs_place place_stores].
    destruct (nth_error inn (j + start)) as [x|] eqn:E; [|apply nth_error_None in E; lia].
    assert (Hj : get_key (j + start) < K) by (apply Hk; lia). rewrite Nat.mod_small by lia.
    assert (Es : seq start (S j) = seq start j ++ [j + start]) by (rewrite seq_S; f_equal; f_equal; lia).
    assert (Et : nth (get_key (j + start)) offsets 0 = S (base (get_key (j + start)) + cntk (seq start j) (get_key (j + start)))).
    { rewrite Ho by auto. rewrite Es, cntk_app. unfold cntk at 2. simpl. rewrite Nat.eqb_refl. simpl. lia. }
    rewrite Et. replace (S _ - 1) with (base (get_key (j + start)) + cntk (seq start j) (get_key (j + start))) by lia.
    set (pos := base (get_key (j + start)) + cntk (seq start j) (get_key (j + start)) + start).
    assert (Hp : pos < length out).
    { apply (Hb pos x). cbn [place_stores]. rewrite E. left. reflexivity. }
    cbn [app run_stores]. rewrite (proj2 (Nat.ltb_lt _ _) Hp). simpl andb. cbn iota. apply IH; auto; try lia.
    - now rewrite length_lset.
    - intros i Hi'. apply Hk. lia.
    - intros k Hk'. rewrite nth_lset, Hl, (proj2 (Nat.ltb_lt _ _) Hj), Bool.andb_true_r. destruct (Nat.eqb_spec (get_key (j + start)) k) as [<-|Hne]; auto.
      rewrite Ho by auto. rewrite Es, cntk_app. unfold cntk at 2. simpl. rewrite (proj2 (Nat.eqb_neq _ _) Hne). simpl. lia.
    - intros k y Hy. rewrite length_lset. apply (Hb k y). cbn [place_stores]. rewrite E. now right.
  Qed.
  Lemma in_place_stores js base start inn cnt k x : start + cnt <= length inn ->
    (In (k, x) (place_stores js base start inn cnt) <->
     exists j, j < cnt /\ nth_error inn (j + start) = Some x /\ k = base (get_key (j + start)) + cntk (seq start j) (get_key (j + start)) + start).
  Proof.
    induction cnt as [|j IH]; intros H; cbn [place_stores]; [split; [intros []|intros (j & Hj & _); lia]|].
    destruct (nth_error inn (j + start)) as [y|] eqn:E; [|apply nth_error_None in E; lia]. simpl. rewrite IH by lia. split.
    - intros [Hx|(i & Hi & Hx)]; [injection Hx as <- <-; exists j; auto|]. exists i. split; auto.
    - intros (i & Hi & Ex & Ek). destruct (Nat.eq_dec i j) as [->|].
      + left. rewrite E in Ex. injection Ex as ->. now rewrite Ek.
      + right. exists i. split; [lia|]. auto.
  Qed.

  Definition sorted_seg (inn : list A) (start len : nat) : list A :=
    flat_map (fun j => match nth_error inn j with Some x => [x] | None => [] end) (by_key get_key K (seq start len)).
  Definition bounds (start len : nat) : list nat := map (before get_key (seq start len)) (seq 0 K).

  Lemma nth_error_flat_some (inn : list A) js : (forall j, In j js -> j < length inn) ->
    forall i, nth_error (flat_map (fun j => match nth_error inn j with Some x => [x] | None => [] end) js) i
      = match nth_error js i with Some j => nth_error inn j | None => None end.
  Proof.
    induction js as [|j js IH]; intros H i; [destruct i; reflexivity|]. simpl.
    destruct (nth_error inn j) as [x|] eqn:E; [|apply nth_error_None in E; specialize (H j ltac:(now left)); lia].
    destruct i as [|i]; simpl; [now rewrite E|]. apply IH. intros q Hq. apply H. now right.
  Qed.
  Lemma flat_some_length (inn : list A) js : (forall j, In j js -> j < length inn) ->
    length (flat_map (fun j => match nth_error inn j with Some x => [x] | None => [] end) js) = length js.
  Proof.
    induction js as [|j js IH]; intros H; auto. simpl. rewrite app_length, IH by (intros q Hq; apply H; now right).
    destruct (nth_error inn j) as [x|] eqn:E; [reflexivity|]. apply nth_error_None in E. specialize (H j ltac:(now left)). lia.
  Qed.
  Lemma sorted_seg_length inn start len : start + len <= length inn -> (forall i, start <= i < start + len -> get_key i < K) ->
    length (sorted_seg inn start len) = len.
  Proof.
    intros Hi Hk. unfold sorted_seg. rewrite flat_some_length.
    - rewrite by_key_length, seq_length; auto. intros j Hj. apply in_seq in Hj. apply Hk. lia.
    - intros j Hj. apply in_by_key in Hj as [Hj _]. apply in_seq in Hj. lia.
  Qed.

  Lemma seq_count_sort_ok inn out start e cbase counts : start <= e -> e <= length inn -> length out = length inn ->
    (forall i, start <= i < e -> get_key i < K) -> cbase + K <= length counts ->
    seq_count_sort get_key width K inn out start e cbase counts
    = Some (put start (sorted_seg inn start (e - start)) out, put cbase (bounds start (e - start)) counts).
  Proof.
    intros Hse He Ho Hk Hc. unfold seq_count_sort. set (cnt := e - start) in *.
    destruct (@cs_count_ok cnt start (repeat 0 K)) as (o1 & E1 & L1 & H1); [apply repeat_length|intros; apply Hk; lia|].
    rewrite E1. set (c := cntk (seq start cnt)).
    assert (Hc1 : forall k, 0 <= k < K -> nth k o1 0 = c k) by (intros k Hk'; rewrite H1, nth_repeat by lia; reflexivity).
    destruct (@cs_scan_ok K 0 cbase o1 counts c L1 eq_refl Hc Hc1) as (o2 & E2 & L2 & H2).
    change (sum_before c 0) with 0 in E2. rewrite E2. rewrite Nat.add_0_r.
    assert (Hpos : forall j, j < cnt -> nth_error (by_key get_key K (seq start cnt)) (sum_before c (get_key (j + start)) + cntk (seq start j) (get_key (j + start))) = Some (j + start)).
    { intros j Hj. unfold c. replace (seq start cnt) with (seq start j ++ (j + start) :: seq (S (j + start)) (cnt - S j)).
      - apply by_key_pos. apply Hk. lia.
      - replace cnt with (j + S (cnt - S j)) at 2 by lia. rewrite seq_app. simpl. now rewrite (Nat.add_comm start j). }
    assert (Hlt : forall j, In j (by_key get_key K (seq start cnt)) -> j < length inn).
    { intros j Hj. apply in_by_key in Hj as [Hj _]. apply in_seq in Hj. lia. }
    assert (Hlen : length (sorted_seg inn start cnt) = cnt) by (apply sorted_seg_length; [lia|intros; apply Hk; lia]).
    assert (Hmem : forall k x, In (k, x) (place_stores (seq start cnt) (sum_before c) start inn cnt) -> start <= k /\ nth_error (sorted_seg inn start cnt) (k - start) = Some x).
    { intros k x Hin. apply in_place_stores in Hin as (j & Hj & Ex & ->); [|lia]. split; [lia|]. unfold sorted_seg.
      rewrite nth_error_flat_some by auto. replace (_ + start - start) with (sum_before c (get_key (j + start)) + cntk (seq start j) (get_key (j + start))) by lia.
      now rewrite Hpos. }
    rewrite (@cs_place_ok (seq start cnt) (sum_before c) start inn cnt o2 out); auto; try lia.
    - rewrite (@run_stores_place A (sorted_seg inn start cnt) start); auto; try lia.
      + simpl. f_equal. f_equal. f_equal. unfold bounds. apply map_ext. intros k. apply sum_cntk.
      + intros i Hi. rewrite Hlen in Hi. destruct (nth_error (by_key get_key K (seq start cnt)) i) as [q|] eqn:Eq.
        * assert (Hq : start <= q < start + cnt) by (apply nth_error_In, in_by_key in Eq; destruct Eq as [Hq _]; apply in_seq in Hq; lia).
          destruct (nth_error inn q) as [x|] eqn:Ex; [|apply nth_error_None in Ex; lia]. exists x. apply in_place_stores; [lia|].
          exists (q - start). split; [lia|]. replace (q - start + start) with q by lia. split; auto.
          specialize (Hpos (q - start) ltac:(lia)). replace (q - start + start) with q in Hpos by lia.
          assert (i = sum_before c (get_key q) + cntk (seq start (q - start)) (get_key q)); [|lia].
          apply (proj1 (NoDup_nth_error (by_key get_key K (seq start cnt)))); [apply by_key_NoDup, seq_NoDup| |congruence].
          apply nth_error_Some. congruence.
        * apply nth_error_None in Eq. rewrite by_key_length, seq_length in Eq; [lia|]. intros j Hj. apply in_seq in Hj. apply Hk. lia.
    - intros i Hi. apply Hk. lia.
    - intros k Hk'. rewrite H2 by auto. simpl. apply sum_before_S.
    - intros k x Hin. apply Hmem in Hin as [Hk' Hx]. assert (k - start < length (sorted_seg inn start cnt)) by (apply nth_error_Some; congruence). lia.
  Qed.

  (* disjoint segments, in any order *)
  Lemma run_put {B} base (L arr : list B) : base + length L <= length arr -> run_stores (combine (seq base (length L)) L) arr = Some (put base L arr).
  Proof. intros H. now apply run_stores_combine. Qed.

  Lemma cs_blocks_ok inn n bs : n = length inn -> (forall i, i < n -> get_key i < K) -> forall order out counts, length out = n ->
    (forall i, In i order -> i * K + K <= length counts) ->
    exists out' counts', cs_blocks get_key width K inn n bs order out counts = Some (out', counts') /\
      run_stores (flat_map (fun i => let s := sorted_seg inn (Nat.min (i * bs) n) (Nat.min (Nat.min (i * bs) n + bs) n - Nat.min (i * bs) n) in
                                     combine (seq (Nat.min (i * bs) n) (length s)) s) order) out = Some out' /\
      run_stores (flat_map (fun i => let s := bounds (Nat.min (i * bs) n) (Nat.min (Nat.min (i * bs) n + bs) n - Nat.min (i * bs) n) in
                                     combine (seq (i * K) (length s)) s) order) counts = Some counts'.
  Proof.
    intros En Hk. induction order as [|i order IH]; intros out counts Ho Hc; cbn [cs_blocks flat_map]; [eauto|].
    set (st := Nat.min (i * bs) n). set (e := Nat.min (st + bs) n).
    assert (Hst : st <= e /\ e <= n) by (unfold st, e; lia).
    rewrite seq_count_sort_ok; try lia; [|intros; apply Hk; lia|apply Hc; now left].
    cbv zeta. assert (Hl : length (sorted_seg inn st (e - st)) = e - st) by (apply sorted_seg_length; [lia|intros; apply Hk; lia]).
    assert (Hlb : length (bounds st (e - st)) = K) by (unfold bounds; now rewrite map_length, seq_length).
    assert (HcI : i * K + K <= length counts) by (apply Hc; now left).
    rewrite !run_stores_app, !run_put by lia.
    apply IH; [rewrite put_length; lia|]. intros q Hq. rewrite put_length by lia. apply Hc. now right.
  Qed.

  Lemma div_up n nb : 0 < nb -> n <= nb * ((n - 1) / nb + 1).
  Proof.
    intros H. pose proof (Nat.div_mod (n - 1) nb ltac:(lia)). pose proof (Nat.mod_upper_bound (n - 1) nb ltac:(lia)). nia.
  Qed.
  Lemma count_sort_blocked order junk cjunk inn nb : 0 < nb -> (forall i, i < length inn -> get_key i < K) ->
    Permutation order (seq 0 nb) ->
    let n := length inn in let bs := (n - 1) / nb + 1 in
    cs_blocks get_key width K inn n bs order (repeat junk n) (repeat cjunk (nb * K))
    = Some (flat_map (fun i => sorted_seg inn (Nat.min (i * bs) n) (Nat.min (Nat.min (i * bs) n + bs) n - Nat.min (i * bs) n)) (seq 0 nb),
            flat_map (fun i => bounds (Nat.min (i * bs) n) (Nat.min (Nat.min (i * bs) n + bs) n - Nat.min (i * bs) n)) (seq 0 nb)).
  Proof.
    intros Hnb Hk Hp n bs. destruct (@cs_blocks_ok inn n bs eq_refl Hk order (repeat junk n) (repeat cjunk (nb * K))) as (out' & counts' & E & E1 & E2).
    { apply repeat_length. }
    { intros i Hi. rewrite repeat_length. apply (Permutation_in _ Hp), in_seq in Hi. nia. }
    rewrite E.
    set (S1 := fun i => sorted_seg inn (Nat.min (i * bs) n) (Nat.min (Nat.min (i * bs) n + bs) n - Nat.min (i * bs) n)) in *.
    set (S2 := fun i => bounds (Nat.min (i * bs) n) (Nat.min (Nat.min (i * bs) n + bs) n - Nat.min (i * bs) n)) in *.
    assert (L1 : forall i, length (S1 i) = Nat.min (i * bs + bs) n - Nat.min (i * bs) n).
    { intros i. unfold S1. rewrite sorted_seg_length; [lia| unfold n; lia|]. intros j Hj. apply Hk. fold n. lia. }
    assert (L2 : forall i, length (S2 i) = K) by (intros; unfold S2, bounds; now rewrite map_length, seq_length).
    assert (B1 : forall i, sum_before (fun i => length (S1 i)) i = Nat.min (i * bs) n).
    { induction i as [|i IH]; [reflexivity|]. rewrite sum_before_S, IH, L1. lia. }
    assert (B2 : forall i, sum_before (fun i => length (S2 i)) i = i * K).
    { induction i as [|i IH]; [reflexivity|]. rewrite sum_before_S, IH, L2. lia. }
    assert (T1 : length (flat_map S1 (seq 0 nb)) = n) by (rewrite flat_map_sum, B1; pose proof (div_up n Hnb) as Hd; fold bs in Hd; lia).
    assert (T2 : length (flat_map S2 (seq 0 nb)) = nb * K) by (rewrite flat_map_sum; apply B2).
    f_equal. f_equal.
    - rewrite (run_stores_combine (flat_map S1 (seq 0 nb)) 0) in E1.
      + rewrite put_all in E1 by (rewrite repeat_length; lia). congruence.
      + rewrite <- segments. erewrite flat_map_ext; [apply Permutation_flat_map, Hp|]. intros i. cbv beta zeta. simpl. now rewrite B1.
      + rewrite repeat_length. lia.
    - rewrite (run_stores_combine (flat_map S2 (seq 0 nb)) 0) in E2.
      + rewrite put_all in E2 by (rewrite repeat_length; lia). congruence.
      + rewrite <- segments. erewrite flat_map_ext; [apply Permutation_flat_map, Hp|]. intros i. cbv beta zeta. simpl. now rewrite B2.
      + rewrite repeat_length. lia.
  Qed.
End CountSort.

(* -- relabelling ----------------------------------------------------------------------- *)
Section Relabel.
  Variable ids : list nat.
  Let n := length ids.
  Let fl (y : nat) : bool := if in_dec Nat.eq_dec y ids then true else false.
  Let rk (x : nat) : nat := length (filter fl (seq 0 x)).
  Lemma fl_In y : fl y = true <-> In y ids.
  Proof. unfold fl. destruct (in_dec Nat.eq_dec y ids); split; auto; discriminate. Qed.
  Lemma rk_S x : rk (S x) = rk x + if fl x then 1 else 0.
  Proof. unfold rk. rewrite seq_S, filter_app, app_length. simpl. destruct (fl x); auto. Qed.
  Lemma rk_mono x y : x <= y -> rk x <= rk y.
  Proof. induction 1; auto. rewrite rk_S. lia. Qed.
  Lemma rk_lt x y : x < y -> In x ids -> rk x < rk y.
  Proof. intros H Hx. apply fl_In in Hx. pose proof (rk_S x) as E. rewrite Hx in E. pose proof (@rk_mono (S x) y H). lia. Qed.
  Lemma rk_onto t : forall x, t < rk x -> exists y, y < x /\ In y ids /\ rk y = t.
  Proof.
    induction x as [|x IH]; intros H; [unfold rk in H; simpl in H; lia|]. rewrite rk_S in H. destruct (fl x) eqn:E.
    - destruct (Nat.eq_dec (rk x) t) as [<-|]; [exists x; split; auto; split; [now apply fl_In|auto]|].
      destruct IH as (y & Hy & H1); [lia|]. exists y. split; [lia|auto].
    - destruct IH as (y & Hy & H1); [lia|]. exists y. split; [lia|auto].
  Qed.
  Lemma relabel_ids_eq : (forall x, In x ids -> x <= n) -> relabel_ids ids = Some (map rk ids, rk n).
  Proof.
    intros H. unfold relabel_ids. fold n.
    destruct (@run_stores_consistent nat (fun _ => 1) (n + 1) (map (fun x => (x, 1)) ids) (repeat 0 (n + 1))) as (a & E & Hl & HA).
    { apply repeat_length. }
    { intros k x Hin. apply in_map_iff in Hin as (y & Ey & Hy). injection Ey as <- <-. apply H in Hy. split; auto. lia. }
    rewrite E.
    assert (Ha : forall y, y < n + 1 -> nth y a 0 = if fl y then 1 else 0).
    { intros y Hy. destruct (HA y Hy) as [[E1 (x & Hx)]|[E1 Hno]].
      - rewrite (nth_error_nth _ _ _ E1). apply in_map_iff in Hx as (z & Ez & Hz). injection Ez as -> _. apply fl_In in Hz. now rewrite Hz.
      - rewrite nth_error_repeat in E1 by lia. rewrite (nth_error_nth _ _ _ E1). destruct (fl y) eqn:Ef; auto. exfalso. apply (Hno 1).
        apply in_map_iff. exists y. split; auto. now apply fl_In. }
    assert (Hs : forall x, x <= n -> nth x (map (sum_before (fun i => nth i a 0)) (seq 0 (n + 1))) 0 = rk x).
    { intros x Hx. rewrite nth_map_seq by lia. assert (Hx' : x <= n + 1) by lia. revert Hx'. clear - Ha. induction x as [|x IH]; intros Hx; [reflexivity|].
      rewrite sum_before_S, IH, rk_S, Ha by lia. reflexivity. }
    f_equal. f_equal.
    - apply map_ext_in. intros x Hx. apply Hs. auto.
    - apply Hs. auto.
  Qed.
  Lemma rk_distinct : (forall x, In x ids -> x < n) -> rk n = length (nodup Nat.eq_dec ids).
  Proof.
    intros H. unfold rk. apply Permutation_length, NoDup_Permutation; [apply NoDup_filter', seq_NoDup|apply NoDup_nodup|].
    intros x. rewrite nodup_In, filter_In, fl_In, in_seq. split; [tauto|]. intros Hx. specialize (H x Hx). split; auto. lia.
  Qed.
  Lemma relabel_ok : (forall x, In x ids -> x < n) -> exists new k, relabel_ids ids = Some (new, k) /\ length new = n /\
    k = length (nodup Nat.eq_dec ids) /\ (forall x, In x new -> x < k) /\ (forall t, t < k -> In t new) /\
    (forall i j, i < n -> j < n -> (nth i new 0 < nth j new 0 <-> nth i ids 0 < nth j ids 0)).
  Proof.
    intros H. exists (map rk ids), (rk n). rewrite relabel_ids_eq by (intros x Hx; specialize (H x Hx); lia).
    split; auto. split; [apply map_length|]. split; [now apply rk_distinct|]. split; [|split].
    - intros x Hx. apply in_map_iff in Hx as (y & <- & Hy). apply rk_lt; auto.
    - intros t Ht. destruct (@rk_onto t _ Ht) as (y & Hy & Hin & <-). apply in_map. auto.
    - intros i j Hi Hj. assert (En : forall i, i < n -> nth i (map rk ids) 0 = rk (nth i ids 0)).
      { intros q Hq. rewrite (nth_indep _ 0 (rk 0)) by (rewrite map_length; auto). apply (map_nth rk). }
      rewrite !En by auto. split.
      + intros Hlt. destruct (Nat.lt_ge_cases (nth i ids 0) (nth j ids 0)) as [|Hge]; auto. pose proof (rk_mono Hge). lia.
      + intros Hlt. apply rk_lt; auto. now apply nth_In.
  Qed.
End Relabel.

(* -- edges ------------------------------------------------------------------------------- *)
Section Edges.
  Variable W : Type.
  Notation nw := (nat * W)%type.
  Notation graph := (csr W).

  Lemma neighbors_length (G : graph) v : regions_ok G -> v < gn G -> length (neighbors G v) = nth v (gdeg G) 0.
  Proof. intros (_ & _ & H & _) Hv. unfold neighbors. rewrite firstn_length, skipn_length. specialize (H v Hv). lia. Qed.

  Record vstep (G : graph) (v : nat) (L : list nw) (G' : graph) : Prop := {
    vs_n : gn G' = gn G; vs_m : gm G' = gm G; vs_off : goff G' = goff G; vs_len : length (gngh G') = length (gngh G);
    vs_dlen : length (gdeg G') = length (gdeg G);
    vs_ngh : neighbors G' v = L; vs_deg : nth v (gdeg G') 0 = length L; vs_le : length L <= nth v (gdeg G) 0;
    vs_other : forall u, u < gn G -> u <> v -> neighbors G' u = neighbors G u /\ nth u (gdeg G') 0 = nth u (gdeg G) 0 }.
  Lemma vstep_regions G v L G' : regions_ok G -> v < gn G -> vstep G v L G' -> regions_ok G'.
  Proof.
    intros (H1 & H2 & H3 & H4) Hv S. destruct S. unfold regions_ok. rewrite vs_n0, vs_off0, vs_len0, vs_dlen0.
    assert (Hd : forall u, u < gn G -> nth u (gdeg G') 0 <= nth u (gdeg G) 0).
    { intros u Hu. destruct (Nat.eq_dec u v) as [->|Hne]; [lia|]. destruct (vs_other0 u Hu Hne). lia. }
    repeat split; auto.
    - intros u Hu. specialize (H3 u Hu). specialize (Hd u Hu). lia.
    - intros u w Hu Hw Hne. specialize (H4 u w Hu Hw Hne). pose proof (Hd u Hu). pose proof (Hd w Hw). lia.
  Qed.

  Lemma neighbors_seg (G : graph) v : neighbors G v = seg (gngh G) (nth v (goff G) 0) (nth v (gdeg G) 0).
  Proof. reflexivity. Qed.
  (* rewriting the front of one list and its degree *)
  Lemma put_vstep (G : graph) v (L T : list nw) : regions_ok G -> v < gn G -> length (L ++ T) = nth v (gdeg G) 0 ->
    vstep G v L {| gn := gn G; gm := gm G; goff := goff G; gdeg := lset (gdeg G) v (length L); gngh := put (nth v (goff G) 0) (L ++ T) (gngh G) |}.
  Proof.
    intros HR Hv Hl. pose proof HR as (H1 & H2 & H3 & H4). specialize (H3 v Hv) as H3v. rewrite app_length in Hl.
    constructor; cbn [gn gm goff gdeg gngh]; auto.
    - apply put_length. rewrite app_length. lia.
    - apply length_lset.
    - rewrite neighbors_seg. cbn [goff gdeg gngh]. rewrite nth_lset_same by lia. apply list_ext_nth_error. intros k. destruct (Nat.ltb_spec k (length L)).
      + rewrite seg_nth, put_nth by (rewrite ?app_length; lia). rewrite (proj2 (Nat.leb_le _ _)), (proj2 (Nat.ltb_lt _ _)) by (rewrite ?app_length; lia).
        simpl. replace (_ + k - _) with k by lia. now rewrite nth_error_app1.
      + transitivity (@None nw); [|symmetry]; apply nth_error_None; [unfold seg; rewrite firstn_length|]; lia.
    - apply nth_lset_same. lia.
    - lia.
    - intros u Hu Hne. rewrite nth_lset_other by auto. split; auto. rewrite !neighbors_seg. cbn [goff gdeg gngh]. rewrite nth_lset_other by auto.
      apply seg_ext. intros q Hq. rewrite put_nth by (rewrite app_length; lia). specialize (H4 u v Hu Hv Hne). rewrite app_length.
      destruct (Nat.leb_spec (nth v (goff G) 0) q), (Nat.ltb_spec q (nth v (goff G) 0 + (length L + length T))); simpl; auto. lia.
  Qed.
  Variables (thr fb : nat).
  Hypothesis Hfb : 0 < fb.
  Lemma packNeighbors_ok v order shuffle q (G : graph) : regions_ok G -> v < gn G -> good_order fb G v order -> reorders shuffle ->
    exists G', packNeighbors thr fb v order shuffle q G = Some G' /\ vstep G v (filter (q v) (neighbors G v)) G'.
  Proof.
    intros HR Hv Ho Hs. unfold packNeighbors, pack. set (N := neighbors G v) in *. set (F := filter (q v) N).
    assert (HN : length N = nth v (gdeg G) 0) by now apply neighbors_length.
    assert (HF : length F <= length N) by apply filter_len_le.
    assert (E : (if length N <? thr then pack_loop (q v) (length N) 0 0 N else filterf (q v) fb order shuffle N N (length N)) = Some (length F, F ++ skipn (length F) N)).
    { destruct (length N <? thr).
      - rewrite pack_loop_ok by lia. assert (E : seg N 0 (length N) = N) by (unfold seg; simpl; apply firstn_all). rewrite E. reflexivity.
      - now apply filterf_ok. }
    rewrite E. eexists. split; [reflexivity|]. apply put_vstep; auto. rewrite app_length, skipn_length. lia.
  Qed.
  Lemma zero_vstep (G : graph) v : regions_ok G -> v < gn G -> vstep G v [] (zeroVertexDegree v G).
  Proof.
    intros HR Hv. destruct HR as (H1 & H2 & H3 & H4). unfold zeroVertexDegree. constructor; cbn [gn gm goff gdeg gngh]; auto.
    - apply length_lset.
    - unfold neighbors. cbn [gn gm goff gdeg gngh]. rewrite nth_lset_same by lia. reflexivity.
    - apply nth_lset_same. lia.
    - simpl. lia.
    - intros u Hu Hne. unfold neighbors. cbn [gn gm goff gdeg gngh]. rewrite nth_lset_other by auto. auto.
  Qed.
  Lemma refl_vstep (G : graph) v : regions_ok G -> v < gn G -> vstep G v (neighbors G v) G.
  Proof. intros HR Hv. constructor; auto; rewrite neighbors_length; auto. Qed.

  (* one step per vertex *)
  Record allsteps (G : graph) (vs : list nat) (L : nat -> list nw) (G' : graph) : Prop := {
    as_n : gn G' = gn G; as_m : gm G' = gm G; as_off : goff G' = goff G; as_ok : regions_ok G';
    as_ngh : forall v, v < gn G -> neighbors G' v = if in_dec Nat.eq_dec v vs then L v else neighbors G v }.
  Lemma allsteps_nil G L : regions_ok G -> allsteps G [] L G.
  Proof. intros H. constructor; auto. Qed.
  Lemma allsteps_cons G v vs L G1 G' : regions_ok G -> v < gn G -> ~ In v vs -> vstep G v (L v) G1 -> allsteps G1 vs L G' -> allsteps G (v :: vs) L G'.
  Proof.
    intros HR Hv Hni S T. destruct T as [T1 T2 T3 T4 T5]. pose proof (vs_n S) as Hn. constructor; try congruence; auto.
    - rewrite T2. apply (vs_m S).
    - rewrite T3. apply (vs_off S).
    - intros u Hu. rewrite T5 by lia. destruct (in_dec Nat.eq_dec u vs) as [H|H], (in_dec Nat.eq_dec u (v :: vs)) as [H'|H']; auto.
      + exfalso. apply H'. now right.
      + destruct H' as [<-|]; [|contradiction]. apply (vs_ngh S).
      + apply (vs_other S); auto. intros ->. apply H'. now left.
  Qed.

  Section Vertices.
    Variable pred : nat -> nw -> nat.
    Hypothesis Hpred : forall v x, pred v x <= 2.
    Lemma count3 v (l : list nw) : length (filter (fun x => pred v x =? 0) l) + (length (filter (fun x => pred v x =? 1) l) + length (filter (fun x => pred v x =? 2) l)) = length l.
    Proof. induction l as [|x l IH]; auto. simpl. specialize (Hpred v x). destruct (pred v x) as [|[|[|]]]; simpl; lia. Qed.
    Lemma fe_vertex_ok G0 v order shuffle (G : graph) : regions_ok G -> v < gn G -> good_order fb G v order -> reorders shuffle -> neighbors G v = neighbors G0 v ->
      exists G', fe_vertex thr fb pred G0 order shuffle v G = Some G' /\ vstep G v (filter (fun x => pred v x =? 0) (neighbors G0 v)) G'.
    Proof.
      intros HR Hv Ho Hs E0. unfold fe_vertex, count_pred. rewrite <- E0. pose proof (count3 v (neighbors G v)) as Hc. rewrite (neighbors_length HR Hv) in Hc.
      destruct (Nat.ltb_spec 0 (length (filter (fun x => pred v x =? 1) (neighbors G v)) + length (filter (fun x => pred v x =? 2) (neighbors G v)))) as [H|H].
      - destruct (Nat.ltb_spec (length (filter (fun x => pred v x =? 1) (neighbors G v)) + length (filter (fun x => pred v x =? 2) (neighbors G v))) (nth v (gdeg G) 0)) as [H'|H'].
        + apply (@packNeighbors_ok v order shuffle (fun v x => pred v x =? 0)); auto.
        + eexists. split; [reflexivity|]. assert (E : filter (fun x => pred v x =? 0) (neighbors G v) = []) by (apply length_zero_iff_nil; lia).
          rewrite E. now apply zero_vstep.
      - eexists. split; [reflexivity|]. rewrite filter_all; [now apply refl_vstep|]. intros x Hx. apply Nat.eqb_eq.
        specialize (Hpred v x). destruct (pred v x) as [|[|[|]]] eqn:Ep; auto; try lia; exfalso.
        + assert (In x (filter (fun x => pred v x =? 1) (neighbors G v))) by (apply filter_In; rewrite Ep; auto).
          destruct (filter (fun x => pred v x =? 1) (neighbors G v)); simpl in *; [contradiction|lia].
        + assert (In x (filter (fun x => pred v x =? 2) (neighbors G v))) by (apply filter_In; rewrite Ep; auto).
          destruct (filter (fun x => pred v x =? 2) (neighbors G v)); simpl in *; [contradiction|lia].
    Qed.
    Lemma fe_vertices_ok G0 ord sh vorder : forall G : graph, regions_ok G -> NoDup vorder -> (forall v, In v vorder -> v < gn G) ->
      (forall v, In v vorder -> good_order fb G v (ord v)) -> (forall v, reorders (sh v)) -> (forall v, In v vorder -> neighbors G v = neighbors G0 v) ->
      exists G', fe_vertices thr fb pred G0 vorder ord sh G = Some G' /\ allsteps G vorder (fun v => filter (fun x => pred v x =? 0) (neighbors G0 v)) G'.
    Proof.
      induction vorder as [|v vs IH]; intros G HR Hnd Hlt Ho Hs E0; cbn [fe_vertices]; [exists G; split; auto; now apply allsteps_nil|].
      inversion Hnd as [|a b Hni Hnd']; subst. assert (Hv : v < gn G) by (apply Hlt; now left).
      destruct (@fe_vertex_ok G0 v (ord v) (sh v) G) as (G1 & E1 & S1); auto; [apply Ho; now left|apply E0; now left|].
      rewrite E1. destruct (IH G1) as (G' & E & T); auto.
      - now apply (vstep_regions HR Hv S1).
      - intros u Hu. rewrite (vs_n S1). apply Hlt. now right.
      - intros u Hu. unfold good_order. destruct (vs_other S1 (u := u)) as [-> _]; [apply Hlt; now right|intros ->; auto|]. apply Ho. now right.
      - intros u Hu. destruct (vs_other S1 (u := u)) as [-> _]; [apply Hlt; now right|intros ->; auto|]. apply E0. now right.
      - exists G'. split; auto. eapply allsteps_cons; eauto.
    Qed.
  End Vertices.
  Lemma pack_vertices_ok pred ord sh vorder : forall G : graph, regions_ok G -> NoDup vorder -> (forall v, In v vorder -> v < gn G) ->
    (forall v, In v vorder -> good_order fb G v (ord v)) -> (forall v, reorders (sh v)) ->
    exists G', pack_vertices pred thr fb vorder ord sh G = Some G' /\ allsteps G vorder (fun v => filter (pred v) (neighbors G v)) G'.
  Proof.
    intros G0. assert (Gen : forall vorder (G : graph), regions_ok G -> NoDup vorder -> (forall v, In v vorder -> v < gn G) ->
      (forall v, In v vorder -> good_order fb G v (ord v)) -> (forall v, reorders (sh v)) -> (forall v, In v vorder -> neighbors G v = neighbors G0 v) ->
      exists G', pack_vertices pred thr fb vorder ord sh G = Some G' /\ allsteps G vorder (fun v => filter (pred v) (neighbors G0 v)) G').
    { clear vorder. induction vorder as [|v vs IH]; intros G HR Hnd Hlt Ho Hs E0; cbn [pack_vertices]; [exists G; split; auto; now apply allsteps_nil|].
      inversion Hnd as [|a b Hni Hnd']; subst. assert (Hv : v < gn G) by (apply Hlt; now left).
      destruct (@packNeighbors_ok v (ord v) (sh v) pred G) as (G1 & E1 & S1); auto; [apply Ho; now left|].
      rewrite E0 in S1 by now left.
      rewrite E1. destruct (IH G1) as (G' & E & T); auto.
      - now apply (vstep_regions HR Hv S1).
      - intros u Hu. rewrite (vs_n S1). apply Hlt. now right.
      - intros u Hu. unfold good_order. destruct (vs_other S1 (u := u)) as [-> _]; [apply Hlt; now right|intros ->; auto|]. apply Ho. now right.
      - intros u Hu. destruct (vs_other S1 (u := u)) as [-> _]; [apply Hlt; now right|intros ->; auto|]. apply E0. now right.
      - exists G'. split; auto. eapply allsteps_cons; eauto. }
    intros. now apply Gen.
  Qed.

  (* returned edges *)
  Lemma shift_combine {B C} (f : B -> C) base (F : list B) : forall s,
    map (fun jx => (base + fst jx, f (snd jx))) (combine (seq s (length F)) F) = combine (seq (base + s) (length (map f F))) (map f F).
  Proof. induction F as [|x F IH]; intros s; auto. simpl. rewrite IH. now rewrite Nat.add_succ_r. Qed.
  Lemma edge_calls {C} (f : nat -> nw -> C) (q : nat -> nw -> bool) (G : graph) :
    flat_map (fun v => map (fun jx => (sum_before (fun v => length (filter (q v) (neighbors G v))) v + fst jx, f v (snd jx))) (filter_calls (q v) (neighbors G v))) (seq 0 (gn G))
    = combine (seq 0 (length (flat_map (fun v => map (f v) (filter (q v) (neighbors G v))) (seq 0 (gn G))))) (flat_map (fun v => map (f v) (filter (q v) (neighbors G v))) (seq 0 (gn G))).
  Proof.
    rewrite <- segments. apply flat_map_ext. intros v. unfold filter_calls. rewrite shift_combine. rewrite Nat.add_0_r.
    simpl. f_equal. f_equal. apply sum_before_ext. intros j _. now rewrite map_length.
  Qed.
  Lemma edge_calls_run {C} (f : nat -> nw -> C) (q : nat -> nw -> bool) (G : graph) shuffle junk : reorders shuffle ->
    run_stores (shuffle (flat_map (fun v => map (fun jx => (sum_before (fun v => length (filter (q v) (neighbors G v))) v + fst jx, f v (snd jx))) (filter_calls (q v) (neighbors G v))) (seq 0 (gn G))))
      (repeat junk (sum_before (fun v => length (filter (q v) (neighbors G v))) (gn G)))
    = Some (flat_map (fun v => map (f v) (filter (q v) (neighbors G v))) (seq 0 (gn G))).
  Proof.
    intros Hs. set (L := flat_map (fun v => map (f v) (filter (q v) (neighbors G v))) (seq 0 (gn G))).
    assert (El : sum_before (fun v => length (filter (q v) (neighbors G v))) (gn G) = length L).
    { unfold L. rewrite flat_map_sum. apply sum_before_ext. intros. now rewrite map_length. }
    rewrite El. rewrite (@run_stores_combine C L 0); [|rewrite Hs, edge_calls; reflexivity|now rewrite repeat_length].
    now rewrite put_all by apply repeat_length.
  Qed.
  Lemma sum_degrees_ok (G : graph) : regions_ok G -> sum_degrees G = total_degree G.
  Proof. intros H. unfold sum_degrees, total_degree. f_equal. apply map_ext_in. intros v Hv. apply in_seq in Hv. symmetry. apply neighbors_length; auto. lia. Qed.

  Lemma filter_edges_ok pred vorder ord sh vshuffle junk (G : graph) : regions_ok G -> (forall v x, pred v x <= 2) ->
    Permutation vorder (seq 0 (gn G)) -> (forall v, v < gn G -> good_order fb G v (ord v)) -> (forall v, reorders (sh v)) -> reorders vshuffle ->
    exists G', filter_edges thr fb pred vorder ord sh vshuffle junk G = Some (edges_where (fun v x => pred v x =? 2) G, G') /\
      regions_ok G' /\ gn G' = gn G /\ (forall v, v < gn G -> neighbors G' v = filter (fun x => pred v x =? 0) (neighbors G v)) /\ gm G' = total_degree G'.
  Proof.
    intros HR Hp Hv Ho Hs Hvs. unfold filter_edges.
    assert (Eo : out_stores pred G = flat_map (fun v => map (fun jx => (sum_before (fun v => length (filter (fun x => pred v x =? 2) (neighbors G v))) v + fst jx, (v, fst (snd jx), snd (snd jx)))) (filter_calls (fun x => pred v x =? 2) (neighbors G v))) (seq 0 (gn G))).
    { apply flat_map_ext. intros v. unfold count_pred. destruct (Nat.ltb_spec 0 (length (filter (fun x => pred v x =? 2) (neighbors G v)))) as [H|H]; auto.
      unfold filter_calls. replace (length (filter _ _)) with 0 by lia. reflexivity. }
    rewrite Eo.
    match goal with |- context [run_stores ?a ?b] => replace (run_stores a b) with (Some (edges_where (fun v x => pred v x =? 2) G))
      by (symmetry; apply (@edge_calls_run _ (fun v x => (v, fst x, snd x)) (fun v x => pred v x =? 2) G vshuffle junk Hvs)) end.
    assert (Hin : forall v, In v vorder <-> v < gn G).
    { intros v. split; intros H; [apply (Permutation_in _ Hv), in_seq in H; lia|apply (Permutation_in _ (Permutation_sym Hv)), in_seq; lia]. }
    destruct (@fe_vertices_ok pred Hp G ord sh vorder G) as (G' & E & T); auto.
    { apply (Permutation_NoDup (Permutation_sym Hv)), seq_NoDup. }
    { intros v. apply Hin. }
    { intros v H. apply Ho, Hin, H. }
    rewrite E. eexists. split; [reflexivity|]. destruct T as [T1 T2 T3 T4 T5]. split; [exact T4|]. split; [exact T1|]. split.
    - intros v H. change (neighbors (set_m (sum_degrees G') G') v) with (neighbors G' v). rewrite T5 by auto.
      destruct (in_dec Nat.eq_dec v vorder) as [|Hn]; auto. exfalso. apply Hn, Hin, H.
    - simpl. rewrite sum_degrees_ok by auto. reflexivity.
  Qed.

  Lemma zero_all l : forall d, (forall v, In v l -> v < length d) -> length (fold_left (fun d v => if 0 <? nth v d 0 then lset d v 0 else d) l d) = length d /\
    forall v, (In v l -> nth v (fold_left (fun d v => if 0 <? nth v d 0 then lset d v 0 else d) l d) 0 = 0) /\
              (~ In v l -> nth v (fold_left (fun d v => if 0 <? nth v d 0 then lset d v 0 else d) l d) 0 = nth v d 0).
  Proof.
    induction l as [|a l IH]; intros d Hd; [simpl; repeat split; auto; intros []|]. cbn [fold_left].
    set (d1 := if 0 <? nth a d 0 then lset d a 0 else d).
    assert (L1 : length d1 = length d) by (unfold d1; destruct (0 <? nth a d 0); rewrite ?length_lset; auto).
    assert (N1 : nth a d1 0 = 0) by (unfold d1; destruct (Nat.ltb_spec 0 (nth a d 0)); [apply nth_lset_same, Hd; now left|lia]).
    assert (N2 : forall v, v <> a -> nth v d1 0 = nth v d 0) by (intros v Hv; unfold d1; destruct (0 <? nth a d 0); auto; now rewrite nth_lset_other by auto).
    destruct (IH d1) as [I1 I2]; [intros v Hv; rewrite L1; apply Hd; now right|]. split; [congruence|]. intros v. destruct (I2 v) as [J1 J2].
    destruct (in_dec Nat.eq_dec v l) as [H|H].
    - split; auto. intros Hn. exfalso. apply Hn. now right.
    - split.
      + intros [->|]; auto. rewrite J2 by auto. exact N1.
      + intros Hn. rewrite J2 by auto. apply N2. intros ->. apply Hn. now left.
  Qed.
  Lemma filter_all_edges_ok pred vshuffle junk (G : graph) : regions_ok G -> reorders vshuffle ->
    exists G', filter_all_edges pred vshuffle junk G = Some (edges_where pred G, G') /\
      regions_ok G' /\ gn G' = gn G /\ (forall v, v < gn G -> neighbors G' v = []) /\ gm G' = 0.
  Proof.
    intros HR Hvs. unfold filter_all_edges.
    match goal with |- context [run_stores ?a ?b] => replace (run_stores a b) with (Some (edges_where pred G))
      by (symmetry; apply (@edge_calls_run _ (fun v x => (v, fst x, snd x)) pred G vshuffle junk Hvs)) end. simpl. eexists. split; [reflexivity|].
    destruct HR as (H1 & H2 & H3 & H4).
    destruct (@zero_all (seq 0 (gn G)) (gdeg G)) as [Z1 Z2]; [intros v Hv; apply in_seq in Hv; lia|].
    assert (Z3 : forall v, v < gn G -> nth v (fold_left (fun d v => if 0 <? nth v d 0 then lset d v 0 else d) (seq 0 (gn G)) (gdeg G)) 0 = 0) by (intros v Hv; apply Z2, in_seq; lia).
    split; [|split; [auto|split; [|auto]]].
    - unfold regions_ok. cbn [gn gm goff gdeg gngh]. repeat split; auto; [lia| |].
      + intros v Hv. rewrite Z3 by auto. specialize (H3 v Hv). lia.
      + intros u v Hu Hv Hne. rewrite !Z3 by auto. lia.
    - intros v Hv. unfold neighbors. cbn [gn gm goff gdeg gngh]. now rewrite Z3.
  Qed.
  Lemma sample_edges_ok pred vshuffle junk (G : graph) : reorders vshuffle -> sample_edges pred vshuffle junk G = Some (edges_where pred G).
  Proof. intros Hvs. unfold sample_edges, all_out_stores, count. apply (@edge_calls_run _ (fun v x => (v, fst x, snd x)) pred G vshuffle junk Hvs). Qed.

  Lemma segment_at {B} (f : nat -> list B) n v : v < n -> seg (flat_map f (seq 0 n)) (sum_before (fun i => length (f i)) v) (length (f v)) = f v.
  Proof.
    intros Hv. replace n with (v + S (n - S v)) by lia. rewrite seq_app, flat_map_app. unfold seg.
    rewrite skipn_app, <- (flat_map_sum f v), skipn_all, Nat.sub_diag. simpl. rewrite firstn_app, Nat.sub_diag, firstn_all. simpl. apply app_nil_r.
  Qed.
  Lemma filter_graph_ok pred shuffle junk (G : graph) : reorders shuffle ->
    exists H, filter_graph pred shuffle junk G = Some H /\ regions_ok H /\ gn H = gn G /\
      (forall v, v < gn G -> neighbors H v = filter (pred v) (neighbors G v)) /\ gm H = total_degree H.
  Proof.
    intros Hs. unfold filter_graph.
    match goal with |- context [run_stores ?a ?b] => replace (run_stores a b) with (Some (flat_map (fun v => map (fun x : nw => x) (filter (pred v) (neighbors G v))) (seq 0 (gn G))))
      by (symmetry; apply (@edge_calls_run _ (fun _ x => x) pred G shuffle junk Hs)) end.
    unfold option_map. change (count pred G) with (fun v => length (filter (pred v) (neighbors G v))).
    eexists. split; [reflexivity|].
    set (c := fun v => length (filter (pred v) (neighbors G v))). set (L := fun v => map (fun x : nw => x) (filter (pred v) (neighbors G v))).
    assert (EL : forall v, L v = filter (pred v) (neighbors G v)) by (intros; apply map_id).
    assert (Ec : forall v, sum_before c v = sum_before (fun i => length (L i)) v) by (intros; apply sum_before_ext; intros; now rewrite EL).
    set (H := {| gn := gn G; gm := _; goff := _; gdeg := _; gngh := _ |}).
    assert (Hoff : forall v, v < gn G -> nth v (goff H) 0 = sum_before c v) by (intros v Hv; unfold H; simpl; now rewrite nth_map_seq).
    assert (Hdeg : forall v, v < gn G -> nth v (gdeg H) 0 = c v).
    { intros v Hv. unfold H. simpl. rewrite nth_map_seq by auto. rewrite Nat.add_1_r, sum_before_S. lia. }
    assert (Hngh : forall v, v < gn G -> neighbors H v = filter (pred v) (neighbors G v)).
    { intros v Hv. rewrite neighbors_seg, Hoff, Hdeg by auto. rewrite Ec. unfold H. cbn [gngh].
      replace (c v) with (length (L v)) by (now rewrite EL). rewrite segment_at by auto. apply EL. }
    assert (Hmono : forall u v, u <= v -> sum_before c u <= sum_before c v).
    { intros u v Huv. induction Huv; auto. rewrite sum_before_S. lia. }
    split; [|split; [reflexivity|split; [exact Hngh|]]].
    - unfold regions_ok. split; [unfold H; simpl; now rewrite map_length, seq_length|]. split; [unfold H; simpl; now rewrite map_length, seq_length|]. split.
      + intros v Hv. change (gn H) with (gn G) in Hv. rewrite Hoff, Hdeg by auto. unfold H. simpl. fold L. rewrite flat_map_sum, <- Ec, <- sum_before_S. apply Hmono. lia.
      + intros u v Hu Hv Hne. change (gn H) with (gn G) in Hu, Hv. rewrite !Hoff, !Hdeg, <- !sum_before_S by auto.
        destruct (Nat.lt_total u v) as [Hl|[Hl|Hl]]; [left|lia|right]; apply Hmono; lia.
    - unfold total_degree. change (gn H) with (gn G). change (gm H) with (sum_before c (gn G)). unfold sum_before. f_equal. apply map_ext_in.
      intros v Hv. apply in_seq in Hv. rewrite Hngh by lia. reflexivity.
  Qed.
  Lemma packEdges_ok pred vs vorder ord sh (G : graph) : regions_ok G -> NoDup vs -> (forall v, In v vs -> v < gn G) -> Permutation vorder vs ->
    (forall v, In v vs -> good_order fb G v (ord v)) -> (forall v, reorders (sh v)) ->
    exists G', packEdges pred thr fb vs vorder ord sh G = Some (map (fun v => (v, length (filter (pred v) (neighbors G v)))) vs, G') /\
      regions_ok G' /\ gn G' = gn G /\ gm G' = gm G /\
      (forall v, In v vs -> neighbors G' v = filter (pred v) (neighbors G v)) /\ (forall v, v < gn G -> ~ In v vs -> neighbors G' v = neighbors G v).
  Proof.
    intros HR Hnd Hlt Hp Ho Hs. assert (Hin : forall v, In v vorder <-> In v vs) by (intros v; split; apply Permutation_in; [|apply Permutation_sym]; auto).
    destruct (@pack_vertices_ok pred ord sh vorder G) as (G' & E & T); auto.
    { apply (Permutation_NoDup (Permutation_sym Hp)), Hnd. }
    { intros v Hv. apply Hlt, Hin, Hv. }
    { intros v Hv. apply Ho, Hin, Hv. }
    unfold packEdges. rewrite E. simpl. destruct T as [T1 T2 T3 T4 T5]. exists G'.
    assert (A1 : forall v, In v vs -> neighbors G' v = filter (pred v) (neighbors G v)).
    { intros v Hv. rewrite T5 by auto. destruct (in_dec Nat.eq_dec v vorder) as [|Hn]; auto. exfalso. apply Hn, Hin, Hv. }
    split; [|split; [auto|split; [auto|split; [auto|split; [exact A1|]]]]].
    - f_equal. f_equal. apply map_ext_in. intros v Hv. f_equal. rewrite <- A1 by auto. symmetry. apply neighbors_length; auto. rewrite T1. auto.
    - intros v Hv Hn. rewrite T5 by auto. destruct (in_dec Nat.eq_dec v vorder) as [H|H]; auto. exfalso. apply Hn, Hin, H.
  Qed.
End Edges.

Lemma block_seq n bs i : 0 < bs -> block n bs i = seq (Nat.min (i * bs) n) (Nat.min (Nat.min (i * bs) n + bs) n - Nat.min (i * bs) n).
Proof.
  intros Hb. unfold block. set (s := Nat.min (i * bs) n). set (e := Nat.min (s + bs) n).
  replace n with (s + ((e - s) + (n - e))) at 1 by (unfold e, s; lia). rewrite !seq_app, !filter_app, Nat.add_0_l.
  assert (Hi : forall j, j / bs = i <-> i * bs <= j < i * bs + bs).
  { intros j. pose proof (Nat.div_mod j bs ltac:(lia)). pose proof (Nat.mod_upper_bound j bs ltac:(lia)). split; [intros <-; lia|].
    intros Hj. symmetry. apply (Nat.div_unique j bs i (j - i * bs)); lia. }
  rewrite filter_none, filter_all, filter_none; [simpl; now rewrite app_nil_r| | |]; intros j Hj; apply in_seq in Hj.
  - apply Nat.eqb_neq. rewrite Hi. unfold e, s in *. lia.
  - apply Nat.eqb_eq, Hi. unfold e, s in *. lia.
  - apply Nat.eqb_neq. rewrite Hi. unfold e, s in *. lia.
Qed.
Lemma sorted_seg_map {A} get_key K (inn : list A) d start len : start + len <= length inn ->
  sorted_seg get_key K inn start len = map (fun j => nth j inn d) (by_key get_key K (seq start len)).
Proof.
  intros H. unfold sorted_seg. assert (Hj : forall j, In j (by_key get_key K (seq start len)) -> j < length inn).
  { intros j Hj. apply (@in_by_key get_key K K (le_n K)) in Hj as [Hj _]. apply in_seq in Hj. lia. }
  induction (by_key get_key K (seq start len)) as [|j js IH]; auto. simpl. rewrite IH by (intros; apply Hj; now right).
  destruct (nth_error inn j) as [x|] eqn:E; [|apply nth_error_None in E; specialize (Hj j ltac:(now left)); lia].
  now rewrite (nth_error_nth _ _ _ E).
Qed.
Lemma nth_flat_const (f : nat -> list nat) K : (forall i, length (f i) = K) -> forall nb i k, i < nb -> k < K -> nth (i * K + k) (flat_map f (seq 0 nb)) 0 = nth k (f i) 0.
Proof.
  intros H nb i k Hi Hk. assert (SS : forall j, sum_before (fun i => length (f i)) j = j * K) by (induction j; [reflexivity|rewrite sum_before_S, IHj, H; lia]).
  replace nb with (i + S (nb - S i)) by lia. rewrite seq_app, flat_map_app. rewrite app_nth2; rewrite flat_map_sum, SS; [|lia].
  replace (i * K + k - i * K) with k by lia. simpl. apply app_nth1. rewrite H. auto.
Qed.
Lemma count_sort_ok {A} key width K thr nb order (junk : A) cjunk inn : 0 < nb -> K <= width -> (forall j, j < length inn -> key j < K) ->
  Permutation order (seq 0 nb) ->
  exists out counts m bs, count_sort key width K thr nb order junk cjunk inn = Some (out, counts, m) /\ 0 < bs /\ length inn <= m * bs /\
    out = flat_map (fun i => map (fun j => nth j inn junk) (by_key key K (block (length inn) bs i))) (seq 0 m) /\
    (forall i k, i < m -> k < K -> nth (i * K + k) counts 0 = before key (block (length inn) bs i) k).
Proof.
  intros Hnb HK Hk Hp. unfold count_sort. set (n := length inn) in *. destruct ((n <? thr) || (nb =? 1)).
  - rewrite seq_count_sort_ok; auto; try lia; try (rewrite repeat_length; lia); [|intros i Hi; apply Hk; lia].
    simpl option_map. do 3 eexists. exists (n + 1). split; [reflexivity|]. split; [lia|]. split; [lia|].
    assert (Eb : block n (n + 1) 0 = seq 0 (n - 0)) by (rewrite block_seq by lia; simpl; f_equal; lia).
    assert (Hl : length (sorted_seg key K inn 0 (n - 0)) = n) by (rewrite (@sorted_seg_length A key width K HK); [lia|unfold n; lia|intros i Hi; apply Hk; lia]).
    split.
    + simpl seq. cbn [flat_map]. rewrite app_nil_r, Eb. rewrite put_all by (rewrite repeat_length; auto). apply sorted_seg_map. unfold n. lia.
    + intros i k Hi Hk'. assert (i = 0) as -> by lia. rewrite Eb. simpl. unfold put. simpl.
      rewrite app_nth1 by (unfold bounds; rewrite map_length, seq_length; auto). unfold bounds. now rewrite nth_map_seq.
  - unfold n. rewrite count_sort_blocked by auto. fold n. simpl option_map. do 4 eexists. split; [reflexivity|]. split; [|split; [exact (@div_up width K HK n nb Hnb)|split]]; [lia| |].
    + apply flat_map_ext. intros i. rewrite block_seq by lia. apply sorted_seg_map. fold n. lia.
    + intros i k Hi Hk'. rewrite nth_flat_const; auto; [|intros q; unfold bounds; now rewrite map_length, seq_length].
      rewrite block_seq by lia. unfold bounds. now rewrite nth_map_seq.
Qed.
