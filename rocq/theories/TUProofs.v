From Coq Require Import NArith Permutation Sorted.
From Verif Require Import Base GBModel TXModel TXSpec TXProofs TUModel TUSpec.
Unset Strict Implicit.
Open Scope nat_scope.

(* -- arrays filled block by block ------------------------------------------------------------------ *)
Lemma run_stores_app {A} (a b : list (nat * A)) : forall arr, run_stores (a ++ b) arr = match run_stores a arr with Some x => run_stores b x | None => None end.
Proof. induction a as [|[i x] a IH]; intros arr; simpl; auto. destruct (i <? length arr); auto. Qed.
Fixpoint run_f {A} (f : nat -> list A -> option (list A)) (order : list nat) (arr : list A) : option (list A) :=
  match order with [] => Some arr | i :: order => match f i arr with None => None | Some a => run_f f order a end end.
Lemma run_f_app {A} (f : nat -> list A -> option (list A)) a b : forall arr, run_f f (a ++ b) arr = match run_f f a arr with Some x => run_f f b x | None => None end.
Proof. induction a as [|i a IH]; intros arr; simpl; auto. destruct (f i arr); auto. Qed.
Lemma run_f_ext {A} (f g : nat -> list A -> option (list A)) order : (forall i, In i order -> forall arr, f i arr = g i arr) -> forall arr, run_f f order arr = run_f g order arr.
Proof.
  induction order as [|i order IH]; intros H arr; simpl; auto. rewrite H by (simpl; auto). destruct (g i arr); auto.
  apply IH. intros; apply H; simpl; auto.
Qed.
Lemma run_stores_flat {A} (g : nat -> list (nat * A)) order : forall arr, run_stores (flat_map g order) arr = run_f (fun i => run_stores (g i)) order arr.
Proof. induction order as [|i order IH]; intros arr; simpl; auto. rewrite run_stores_app. destruct (run_stores (g i) arr); auto. Qed.

Section Blocks.
  Variable A : Type.
  Variable n : nat.
  Variable zero full : nat -> list A.
  Hypothesis Hlen : forall i, length (zero i) = length (full i).
  Variable f : nat -> list A -> option (list A).
  Definition off (i : nat) : nat := list_sum (map (fun k => length (full k)) (seq 0 i)).
  Hypothesis Hf : forall i pre post, i < n -> length pre = off i -> f i (pre ++ zero i ++ post) = Some (pre ++ full i ++ post).
  Definition blk (D : list nat) (k : nat) : list A := if existsb (Nat.eqb k) D then full k else zero k.
  Lemma blk_len D l : length (flat_map (blk D) l) = list_sum (map (fun k => length (full k)) l).
  Proof. induction l as [|a l IH]; simpl; auto. rewrite app_length, IH. unfold blk. destruct (existsb _ D); auto. Qed.
  Lemma ex_in D k : existsb (Nat.eqb k) D = true <-> In k D.
  Proof.
    rewrite existsb_exists. split; [intros (x & H & E); apply Nat.eqb_eq in E; now subst|]. intros H. exists k. split; auto. apply Nat.eqb_refl.
  Qed.
  Lemma blk_add D i l : ~ In i l -> flat_map (blk (i :: D)) l = flat_map (blk D) l.
  Proof.
    induction l as [|a l IH]; intros H; simpl; auto. rewrite IH by (simpl in H; tauto). f_equal. unfold blk. simpl.
    destruct (Nat.eqb_spec a i); auto. subst. simpl in H. tauto.
  Qed.
  Lemma blocks_run order : forall D tail, NoDup order -> (forall i, In i order -> i < n) -> (forall i, In i order -> ~ In i D) ->
    run_f f order (flat_map (blk D) (seq 0 n) ++ tail) = Some (flat_map (blk (rev order ++ D)) (seq 0 n) ++ tail).
  Proof.
    induction order as [|i order IH]; intros D tail Hn Hi Hd; [reflexivity|]. cbn [run_f rev]. rewrite <- app_assoc. cbn [app].
    set (R := flat_map (blk (rev order ++ i :: D)) (seq 0 n)).
    inversion Hn; subst. assert (Hin : i < n) by (apply Hi; simpl; auto).
    assert (Es : seq 0 n = seq 0 i ++ i :: seq (S i) (n - i - 1)).
    { transitivity (seq 0 (i + (1 + (n - i - 1)))); [f_equal; lia|]. rewrite seq_app. reflexivity. }
    rewrite Es at 1. rewrite flat_map_app. cbn [flat_map].
    assert (Eb : blk D i = zero i).
    { unfold blk. destruct (existsb (Nat.eqb i) D) eqn:E; auto. apply ex_in in E. exfalso. eapply Hd; [|exact E]. simpl; auto. }
    rewrite Eb, <- !app_assoc. rewrite Hf; auto; [|apply blk_len].
    assert (Ef : flat_map (blk D) (seq 0 i) ++ full i ++ flat_map (blk D) (seq (S i) (n - i - 1)) ++ tail = flat_map (blk (i :: D)) (seq 0 n) ++ tail).
    { rewrite Es, flat_map_app. cbn [flat_map]. rewrite !blk_add by (rewrite in_seq; lia).
      assert (E2 : blk (i :: D) i = full i) by (unfold blk; simpl; now rewrite Nat.eqb_refl). now rewrite E2, <- !app_assoc. }
    rewrite Ef, IH; auto.
    - intros; apply Hi; simpl; auto.
    - intros k Hk [<-|H]; [auto|]. eapply Hd; [|exact H]. simpl; auto.
  Qed.
  Theorem blocks order tail : Permutation order (seq 0 n) ->
    run_f f order (flat_map zero (seq 0 n) ++ tail) = Some (flat_map full (seq 0 n) ++ tail).
  Proof.
    intros Hp. assert (E0 : flat_map zero (seq 0 n) = flat_map (blk []) (seq 0 n)) by (apply flat_map_ext; reflexivity).
    rewrite E0, blocks_run.
    - f_equal. f_equal. rewrite !flat_map_concat_map. f_equal. apply map_ext_in. intros k Hk. unfold blk.
      assert (E : existsb (Nat.eqb k) (rev order ++ []) = true); [|now rewrite E]. apply ex_in. rewrite app_nil_r, <- in_rev.
      eapply Permutation_in; [apply Permutation_sym; exact Hp|exact Hk].
    - eapply Permutation_NoDup; [apply Permutation_sym; exact Hp|apply seq_NoDup].
    - intros i Hi. apply (Permutation_in _ Hp) in Hi. apply in_seq in Hi. lia.
    - auto.
  Qed.
End Blocks.

Lemma lset_app {A} (pre : list A) x y post : lset (pre ++ x :: post) (length pre) y = pre ++ y :: post.
Proof. induction pre as [|a pre IH]; simpl; auto. now rewrite IH. Qed.
Lemma stores_range {A} (t : list A) : forall pre mid post, length mid = length t ->
  run_stores (combine (seq (length pre) (length t)) t) (pre ++ mid ++ post) = Some (pre ++ t ++ post).
Proof.
  induction t as [|c t IH]; intros pre [|a mid] post H; simpl in *; try discriminate; auto.
  destruct (Nat.ltb_spec (length pre) (length (pre ++ a :: mid ++ post))) as [_|L]; [|rewrite app_length in L; simpl in L; lia].
  rewrite lset_app. specialize (IH (pre ++ [c]) mid post). rewrite app_length in IH. simpl in IH.
  rewrite Nat.add_1_r, <- !app_assoc in IH. simpl in IH. apply IH. lia.
Qed.
Lemma nth_mseq {A} (g : nat -> A) n i d : i < n -> nth i (map g (seq 0 n)) d = g i.
Proof. intros H. rewrite (nth_indep _ d (g 0)) by now rewrite map_length, seq_length. rewrite map_nth, seq_nth by auto. reflexivity. Qed.
Lemma scan_nth l i : i < length l -> nth i (scan_excl 0 l) 0 = list_sum (firstn i l).
Proof.
  intros H. assert (Hi : i <= length l) by lia. pose proof (@scan_excl_nth l 0 i Hi) as E.
  rewrite app_nth1 in E; [exact E|]. rewrite scan_excl_length. exact H.
Qed.
Lemma firstn_map_seq {A} (g : nat -> A) n i : i <= n -> firstn i (map g (seq 0 n)) = map g (seq 0 i).
Proof.
  intros H. rewrite firstn_map. f_equal. revert i H. generalize 0 as b. induction n as [|n IH]; intros b [|i] H; simpl; auto; [lia|].
  f_equal. apply IH. lia.
Qed.
Lemma scan_off (g : nat -> nat) n i : i < n -> nth i (scan_excl 0 (map g (seq 0 n))) 0 = list_sum (map g (seq 0 i)).
Proof. intros H. rewrite scan_nth by (rewrite map_length, seq_length; lia). rewrite firstn_map_seq by lia. reflexivity. Qed.
Lemma map_nth_seq {A B} (g : A -> B) (l : list A) d : map g l = map (fun i => g (nth i l d)) (seq 0 (length l)).
Proof.
  induction l as [|a l IH]; simpl; auto. f_equal. rewrite <- seq_shift, map_map. exact IH.
Qed.
Lemma flat_map_nth_seq {A B} (g : A -> list B) (l : list A) d : flat_map g l = flat_map (fun i => g (nth i l d)) (seq 0 (length l)).
Proof. rewrite !flat_map_concat_map. now rewrite (map_nth_seq g l d). Qed.
Lemma filter_flat_map {A B} (p : B -> bool) (g : A -> list B) l : filter p (flat_map g l) = flat_map (fun x => filter p (g x)) l.
Proof. induction l as [|a l IH]; simpl; auto. now rewrite filter_app, IH. Qed.
Lemma repeat_flat {A} (d : A) (g : nat -> nat) l : repeat d (list_sum (map g l)) = flat_map (fun i => repeat d (g i)) l.
Proof. induction l as [|a l IH]; simpl; auto. now rewrite repeat_app, IH. Qed.

(* -- text ------------------------------------------------------------------------------------------- *)
Lemma digits_length fuel : forall k x, (x < 10 ^ N.of_nat k)%N -> length (digits fuel x) <= Nat.max 1 k.
Proof.
  induction fuel as [|fuel IH]; intros k x H; cbn [digits length]; [lia|]. destruct (N.ltb_spec x 10) as [L|L]; [cbn [length]; lia|].
  destruct k as [|[|k]].
  - simpl in H. lia.
  - change (10 ^ N.of_nat 1)%N with 10%N in H. lia.
  - rewrite app_length. simpl length. assert (length (digits fuel (x / 10)) <= Nat.max 1 (S k)); [|lia]. apply IH.
    apply N.div_lt_upper_bound; [lia|]. rewrite <- N.pow_succ_r', <- Nat2N.inj_succ. exact H.
Qed.
Lemma print_length k x : (N.of_nat x < 10 ^ N.of_nat k)%N -> 0 < k -> length (print x) <= k.
Proof. intros H Hk. unfold print, print_N. pose proof (@digits_length (S (N.size_nat (N.of_nat x))) k _ H). lia. Qed.
Lemma print_digits x : print x <> [] /\ Forall (fun c => 48 <= c < 58) (print x).
Proof. unfold print. destruct (print_N_ok (N.of_nat x)) as ([H _] & H2 & _). auto. Qed.

Fixpoint fits (a : item) : Prop :=
  match a with U32 x => (N.of_nat x < 2 ^ 32)%N | U64 x => (N.of_nat x < 2 ^ 64)%N | Pair a b => fits a /\ fits b end.
Fixpoint enc (a : item) : list nat :=
  match a with
  | U32 x => print x ++ repeat 0 (12 - length (print x))
  | U64 x => print x ++ repeat 0 (21 - length (print x))
  | Pair a b => enc a ++ [32] ++ enc b
  end.
Fixpoint text (a : item) : list nat :=
  match a with U32 x | U64 x => print x | Pair a b => text a ++ [32] ++ text b end.
Lemma len32 x : (N.of_nat x < 2 ^ 32)%N -> length (print x) <= 11.
Proof. intros H. apply print_length; [|lia]. change (10 ^ N.of_nat 11)%N with 100000000000%N. change (2 ^ 32)%N with 4294967296%N in H. lia. Qed.
Lemma len64 x : (N.of_nat x < 2 ^ 64)%N -> length (print x) <= 20.
Proof.
  intros H. apply print_length; [|lia]. change (10 ^ N.of_nat 20)%N with 100000000000000000000%N.
  change (2 ^ 64)%N with 18446744073709551616%N in H. lia.
Qed.
Lemma enc_length a : fits a -> length (enc a) = t_to_stringlen a.
Proof.
  induction a as [x|x|a IHa b IHb]; intros H; cbn [enc t_to_stringlen fits] in *.
  - pose proof (len32 H). rewrite app_length, repeat_length. lia.
  - pose proof (len64 H). rewrite app_length, repeat_length. lia.
  - destruct H. rewrite !app_length, IHa, IHb by auto. simpl length. lia.
Qed.
Lemma word_stores k x pre post : length (print x) < k ->
  run_stores (stores_at (length pre) (print x ++ [0])) (pre ++ repeat 0 k ++ post) = Some (pre ++ (print x ++ repeat 0 (k - length (print x))) ++ post).
Proof.
  intros H. unfold stores_at.
  assert (E : repeat 0 k = repeat 0 (length (print x ++ [0])) ++ repeat 0 (k - length (print x ++ [0]))).
  { rewrite <- repeat_app. f_equal. rewrite app_length. simpl. lia. }
  rewrite E, <- (app_assoc (repeat 0 _)). rewrite stores_range by (now rewrite repeat_length). f_equal. f_equal.
  rewrite <- !app_assoc. f_equal. replace (k - length (print x)) with (1 + (k - length (print x ++ [0]))) by (rewrite app_length; simpl; lia).
  reflexivity.
Qed.
Lemma item_stores a : forall pre post, fits a ->
  run_stores (type_to_string (length pre) a) (pre ++ repeat 0 (t_to_stringlen a) ++ post) = Some (pre ++ enc a ++ post).
Proof.
  induction a as [x|x|a IHa b IHb]; intros pre post H; cbn [enc t_to_stringlen fits type_to_string] in *.
  - apply word_stores. pose proof (len32 H). lia.
  - apply word_stores. pose proof (len64 H). lia.
  - destruct H as [Ha Hb].
    assert (E : repeat 0 (t_to_stringlen a + t_to_stringlen b + 1) = repeat 0 (t_to_stringlen a) ++ [0] ++ repeat 0 (t_to_stringlen b)).
    { change [0] with (repeat 0 1). rewrite <- !repeat_app. f_equal. lia. }
    rewrite E, run_stores_app, <- !app_assoc, IHa by auto. cbn [app]. cbn [run_stores].
    assert (El : length (pre ++ enc a) = length pre + t_to_stringlen a) by (rewrite app_length, enc_length; auto).
    replace (pre ++ enc a ++ 0 :: repeat 0 (t_to_stringlen b) ++ post) with ((pre ++ enc a) ++ 0 :: repeat 0 (t_to_stringlen b) ++ post) by now rewrite <- app_assoc.
    rewrite <- El. destruct (Nat.ltb_spec (length (pre ++ enc a)) (length ((pre ++ enc a) ++ 0 :: repeat 0 (t_to_stringlen b) ++ post))) as [_|L].
    2:{ rewrite (app_length (pre ++ enc a)) in L. simpl in L. lia. }
    rewrite lset_app. specialize (IHb ((pre ++ enc a) ++ [32]) post Hb). rewrite (app_length (pre ++ enc a)) in IHb. simpl length in IHb.
    rewrite <- !app_assoc in IHb. cbn [app] in IHb. rewrite <- !app_assoc. rewrite IHb. reflexivity.
Qed.
Lemma enc_filter a : filter (fun c => 0 <? c) (enc a) = text a.
Proof.
  assert (Hz : forall k, filter (fun c => 0 <? c) (repeat 0 k) = []) by (induction k; simpl; auto).
  assert (Hp : forall x, filter (fun c => 0 <? c) (print x) = print x).
  { intros x. destruct (print_digits x) as [_ H]. induction H as [|c t Hc _ IH]; simpl; auto.
    destruct (Nat.ltb_spec 0 c); [now rewrite IH|lia]. }
  induction a as [x|x|a IHa b IHb]; cbn [enc text].
  - now rewrite filter_app, Hz, Hp, app_nil_r.
  - now rewrite filter_app, Hz, Hp, app_nil_r.
  - rewrite filter_app, IHa. simpl. now rewrite IHb.
Qed.

Theorem to_string_correct T order : T <> [] -> Forall fits T -> Permutation order (seq 0 (length T - 1)) ->
  sequence_to_string T order = Some (flat_map (fun a => text a ++ [10]) T).
Proof.
  intros Hne Hfits Hp. unfold sequence_to_string. set (n := length T).
  assert (Hn : 0 < n) by (unfold n; destruct T; [congruence|simpl; lia]). destruct (Nat.eqb_spec n 0); [lia|].
  set (it i := nth i T (U32 0)). set (lens := map (fun a => t_to_stringlen a + 1) T).
  assert (El : lens = map (fun i => t_to_stringlen (it i) + 1) (seq 0 n)) by apply (map_nth_seq (fun a => t_to_stringlen a + 1)).
  assert (Hfit : forall i, i < n -> fits (it i)) by (intros i Hi; rewrite Forall_forall in Hfits; apply Hfits, nth_In; exact Hi).
  set (zero i := repeat 0 (t_to_stringlen (it i) + 1)).
  set (full i := if i <? n then enc (it i) ++ [10] else zero i).
  assert (HL : forall i, length (zero i) = length (full i)).
  { intros i. unfold full. destruct (Nat.ltb_spec i n) as [Hi|Hi]; auto. unfold zero. rewrite repeat_length, app_length, enc_length by auto. reflexivity. }
  assert (Hoff : forall i, off full i = list_sum (map (fun k => t_to_stringlen (it k) + 1) (seq 0 i))).
  { intros i. unfold off. f_equal. apply map_ext. intros k. rewrite <- HL. unfold zero. now rewrite repeat_length. }
  set (f i := run_stores (type_to_string (off full i) (it i) ++ [(off full (i + 1) - 1, 10)])).
  assert (Hstep : forall i, i < n -> forall pre post, length pre = off full i -> f i (pre ++ zero i ++ post) = Some (pre ++ full i ++ post)).
  { intros i Hi pre post Hpre. assert (Efull : full i = enc (it i) ++ [10]) by (unfold full; destruct (Nat.ltb_spec i n); [auto|lia]). rewrite Efull. unfold f.
    assert (Eo : off full (i + 1) - 1 = length (pre ++ enc (it i))).
    { rewrite app_length, enc_length by auto. unfold off in *. rewrite Nat.add_1_r, seq_S, map_app, list_sum_app. simpl. rewrite <- HL. unfold zero.
      rewrite repeat_length. lia. }
    rewrite run_stores_app, <- Hpre. unfold zero. rewrite repeat_app, <- app_assoc, item_stores by auto. change (repeat 0 1) with [0]. cbn [run_stores app].
    rewrite Eo. replace (pre ++ enc (it i) ++ 0 :: post) with ((pre ++ enc (it i)) ++ 0 :: post) by now rewrite <- app_assoc.
    destruct (Nat.ltb_spec (length (pre ++ enc (it i))) (length ((pre ++ enc (it i)) ++ 0 :: post))) as [_|L].
    2:{ rewrite (app_length (pre ++ enc (it i))) in L. simpl in L. lia. }
    rewrite lset_app. now rewrite <- !app_assoc. }
  assert (Em : repeat 0 (list_sum lens) = flat_map zero (seq 0 n) ++ []) by (rewrite app_nil_r, El; apply repeat_flat).
  assert (Es : run_stores (flat_map (fun i => type_to_string (nth i (scan_excl 0 lens) 0) (nth i T (U32 0)) ++ [(nth (i + 1) (scan_excl 0 lens) 0 - 1, 10)]) order
      ++ type_to_string (nth (n - 1) (scan_excl 0 lens) 0) (nth (n - 1) T (U32 0)) ++ [(list_sum lens - 1, 10)]) (repeat 0 (list_sum lens))
    = run_f f (order ++ [n - 1]) (repeat 0 (list_sum lens))).
  { rewrite run_stores_app, run_stores_flat, run_f_app.
    assert (Ha : forall i, In i order -> forall arr, run_stores (type_to_string (nth i (scan_excl 0 lens) 0) (nth i T (U32 0)) ++ [(nth (i + 1) (scan_excl 0 lens) 0 - 1, 10)]) arr = f i arr).
    { intros i Hi arr. apply (Permutation_in _ Hp) in Hi. apply in_seq in Hi. fold n in Hi. unfold f. rewrite El, !scan_off by lia. now rewrite !Hoff. }
    rewrite (run_f_ext Ha). destruct (run_f f order (repeat 0 (list_sum lens))) as [arr|]; auto. cbn [run_f]. unfold f.
    rewrite El, scan_off by lia. rewrite !Hoff. replace (n - 1 + 1) with n by lia. fold (it (n - 1)). destruct (run_stores _ arr); auto. }
  cbv zeta. rewrite Es, Em.
  rewrite (@blocks _ n zero full HL f (fun i pre post Hi => @Hstep i Hi pre post)).
  - f_equal. rewrite app_nil_r, filter_flat_map. rewrite (flat_map_nth_seq (fun a => text a ++ [10]) T (U32 0)). fold n.
    rewrite !flat_map_concat_map. f_equal. apply map_ext_in. intros i Hi. apply in_seq in Hi. unfold full.
    destruct (Nat.ltb_spec i n) as [_|]; [|lia]. rewrite filter_app, enc_filter. reflexivity.
  - replace n with (S (n - 1)) at 2 by lia. rewrite seq_S. simpl. apply Permutation_app_tail. exact Hp.
Qed.

(* -- reading the text ---------------------------------------------------------------------------------- *)
Lemma tokens_sep t c s : word t -> is_space c = true -> tokens_from [] (t ++ c :: s) = t :: tokens_from [] s.
Proof.
  intros [Hne Ht] Hc. rewrite tokens_word by auto. simpl. rewrite Hc. destruct t; [congruence|reflexivity].
Qed.
Lemma print_word x : word (print x).
Proof. apply print_ok. Qed.
Lemma tokens_pairs (es : list (nat * nat)) s : tokens_from [] (flat_map (fun a => text a ++ [10]) (edge_items es) ++ s) =
  flat_map (fun e => [print (fst e); print (snd e)]) es ++ tokens_from [] s.
Proof.
  induction es as [|[a b] es IH]; [reflexivity|]. cbn [edge_items map flat_map text fst snd].
  rewrite <- !app_assoc. cbn [app]. rewrite tokens_sep by (auto using print_word). f_equal.
  rewrite tokens_sep by (auto using print_word). f_equal. exact IH.
Qed.
Lemma tokens_nums (xs : list nat) s (k : nat -> item) : (forall x, text (k x) = print x) ->
  tokens_from [] (flat_map (fun a => text a ++ [10]) (map k xs) ++ s) = map print xs ++ tokens_from [] s.
Proof.
  intros Hk. induction xs as [|x xs IH]; [reflexivity|]. cbn [map flat_map]. rewrite Hk, <- !app_assoc. cbn [app].
  rewrite tokens_sep by (auto using print_word). f_equal. exact IH.
Qed.
Lemma numeric_print x : (N.of_nat x < 2 ^ 32)%N -> numeric (print x) = true.
Proof.
  intros H. unfold numeric. apply andb_true_intro. split.
  - destruct (print_digits x) as [_ Hd]. apply forallb_forall. rewrite Forall_forall in Hd. intros c Hc. specialize (Hd c Hc).
    apply andb_true_intro. split; [apply Nat.leb_le; lia|apply Nat.ltb_lt; lia].
  - unfold print. destruct (print_N_ok (N.of_nat x)) as (_ & _ & ->). apply N.ltb_lt. exact H.
Qed.
Lemma read_pairs_ok (es : list (nat * nat)) : (forall a b, In (a, b) es -> (N.of_nat a < 2 ^ 32)%N /\ (N.of_nat b < 2 ^ 32)%N) ->
  read_pairs (flat_map (fun e => [print (fst e); print (snd e)]) es) = es.
Proof.
  induction es as [|[a b] es IH]; intros H; [reflexivity|]. destruct (H a b) as [Ha Hb]; [simpl; auto|].
  cbn [flat_map fst snd app read_pairs]. rewrite !numeric_print by auto. cbn [andb]. rewrite IH by (intros; apply H; simpl; auto).
  now rewrite (proj2 (print_ok a)), (proj2 (print_ok b)).
Qed.
Lemma skip_digits fuel x s : skip_comments fuel (print x ++ s) = print x ++ s.
Proof.
  destruct (print_digits x) as [Hne H]. destruct (print x) as [|c t]; [congruence|]. inversion H; subst. destruct fuel; auto.
  cbn [app skip_comments]. destruct (Nat.eqb_spec c 10); [lia|]. destruct (Nat.eqb_spec c 35); [lia|]. reflexivity.
Qed.

(* -- edge lists ------------------------------------------------------------------------------------------- *)
Section EdgeList.
  Context {W : Type}.
  Variable G : csr W.
  Hypothesis Hwf : wf_graph G.
  Hypothesis Ht : targets_below G.
  Hypothesis Hs : small_ids G.

  Definition sel (direct_sym : bool) (e : nat * nat) : bool := if direct_sym then fst e <? snd e else true.
  Lemma chosen_edges ds : flat_map (chosen G ds) (seq 0 (gn G)) = filter (sel ds) (edges_of G).
  Proof. unfold edges_of. now rewrite filter_flat_map. Qed.
  Lemma edge_count_eq ds : edge_count G ds = length (filter (sel ds) (edges_of G)).
  Proof. rewrite <- chosen_edges, flat_map_length'. reflexivity. Qed.
  Lemma edges_length : length (edges_of G) = gm G.
  Proof.
    unfold edges_of. rewrite flat_map_length'. destruct Hwf as [_ H]. rewrite H. f_equal. apply map_ext_in. intros v Hv. apply in_seq in Hv.
    rewrite map_length. apply wf_degree; auto. lia.
  Qed.
  Lemma filter_le {A} (p : A -> bool) l : length (filter p l) <= length l.
  Proof. induction l as [|a l IH]; simpl; auto. destruct (p a); simpl; lia. Qed.

  Lemma edge_array_eq ds order : Permutation order (seq 0 (gn G)) ->
    edge_array G ds order = Some (filter (sel ds) (edges_of G) ++ repeat (0, 0) (gm G - length (filter (sel ds) (edges_of G)))).
  Proof.
    intros Hp. unfold edge_array. rewrite run_stores_flat.
    set (zero i := repeat (0, 0) (length (chosen G ds i))).
    assert (HL : forall i, length (zero i) = length (chosen G ds i)) by (intros; apply repeat_length).
    assert (Er : repeat (0, 0) (gm G) = flat_map zero (seq 0 (gn G)) ++ repeat (0, 0) (gm G - length (filter (sel ds) (edges_of G)))).
    { rewrite <- edges_length at 1. unfold zero. rewrite <- (repeat_flat (0, 0) (fun i => length (chosen G ds i))), <- repeat_app. f_equal.
      rewrite <- edges_length. change (list_sum (map (fun i => length (chosen G ds i)) (seq 0 (gn G)))) with (edge_count G ds).
      rewrite edge_count_eq. pose proof (filter_le (sel ds) (edges_of G)). lia. }
    rewrite Er. rewrite <- chosen_edges at 2.
    rewrite (@run_f_ext _ _ (fun i => run_stores (combine (seq (off (chosen G ds) i) (length (chosen G ds i))) (chosen G ds i)))).
    - apply blocks; auto. intros i pre post Hi Hpre. rewrite <- Hpre. apply stores_range. auto.
    - intros i Hi arr. apply (Permutation_in _ Hp) in Hi. apply in_seq in Hi. rewrite scan_off by lia. reflexivity.
  Qed.
  Lemma edges_small e : In e (edges_of G) -> (N.of_nat (fst e) < 2 ^ 32)%N /\ (N.of_nat (snd e) < 2 ^ 32)%N.
  Proof.
    intros H. unfold edges_of in H. apply in_flat_map in H as (u & Hu & H). apply in_seq in Hu. apply in_map_iff in H as ([v w] & <- & H).
    assert (v < gn G) by (eapply Ht; [|exact H]; lia). simpl. unfold small_ids in Hs. split; lia.
  Qed.

  Definition listed (ds : bool) : list (nat * nat) :=
    filter (sel ds) (edges_of G) ++ repeat (0, 0) (gm G - length (filter (sel ds) (edges_of G))).
  Lemma listed_length ds : length (listed ds) = gm G.
  Proof.
    unfold listed. rewrite app_length, repeat_length. pose proof (filter_le (sel ds) (edges_of G)). pose proof edges_length. lia.
  Qed.
  Lemma listed_small ds a b : In (a, b) (listed ds) -> (N.of_nat a < 2 ^ 32)%N /\ (N.of_nat b < 2 ^ 32)%N.
  Proof.
    intros H. unfold listed in H. apply in_app_or in H as [H|H].
    - apply filter_In in H as [H _]. exact (edges_small H).
    - apply repeat_spec in H. injection H as -> ->. simpl. lia.
  Qed.
  Theorem printed ds hd order order2 : 0 < gm G -> Permutation order (seq 0 (gn G)) -> Permutation order2 (seq 0 (gm G - 1)) ->
    print_edge_list G ds hd order order2 =
      Some ((if hd then print (gn G) ++ [32] ++ print (edge_count G ds) ++ [10] else []) ++
            flat_map (fun a => text a ++ [10]) (edge_items (listed ds))).
  Proof.
    intros Hm H1 H2. unfold print_edge_list. rewrite edge_array_eq by auto. fold (listed ds).
    rewrite to_string_correct; auto.
    - intros E. apply (f_equal (@length _)) in E. unfold edge_items in E. rewrite map_length, listed_length in E. simpl in E. lia.
    - apply Forall_forall. intros a Ha. unfold edge_items in Ha. apply in_map_iff in Ha as ([x y] & <- & Ha). exact (listed_small Ha).
    - unfold edge_items. rewrite map_length, listed_length. exact H2.
  Qed.
  Theorem printed_read ds order order2 : 0 < gm G -> Permutation order (seq 0 (gn G)) -> Permutation order2 (seq 0 (gm G - 1)) ->
    exists s, print_edge_list G ds false order order2 = Some s /\ read_unweighted_edge_list s = listed ds /\
      print_edge_list G ds true order order2 = Some ((print (gn G) ++ [32] ++ print (length (filter (sel ds) (edges_of G))) ++ [10]) ++ s).
  Proof.
    intros Hm H1 H2. eexists. rewrite !printed by auto. cbn [app]. split; [reflexivity|]. split.
    - unfold read_unweighted_edge_list.
      assert (E : forall fuel, skip_comments fuel (flat_map (fun a => text a ++ [10]) (edge_items (listed ds))) = flat_map (fun a => text a ++ [10]) (edge_items (listed ds))).
      { intros fuel. destruct (listed ds) as [|[a b] es]; [destruct fuel; reflexivity|]. cbn [edge_items map flat_map text fst snd].
        rewrite <- !app_assoc. apply skip_digits. }
      rewrite E. unfold map_tokens. pose proof (tokens_pairs (listed ds) []) as Tk. cbn [tokens_from] in Tk. rewrite !app_nil_r in Tk. rewrite Tk.
      apply read_pairs_ok. apply listed_small.
    - now rewrite edge_count_eq.
  Qed.
End EdgeList.

(* -- randomReorder ------------------------------------------------------------------------------------------- *)
Lemma seq_snoc n : seq 0 (n + 1) = seq 0 n ++ [n].
Proof. now rewrite Nat.add_1_r, seq_S. Qed.
Section Reorder.
  Variable G : csr unit.
  Variable perm : list nat.
  Variable sort : list nat -> list nat.
  Hypothesis Hwf : wf_graph G.
  Hypothesis Ht : targets_below G.
  Hypothesis Hs : small_ids G.
  Hypothesis Hm64 : (N.of_nat (gm G) < 2 ^ 64)%N.
  Hypothesis Hn0 : 0 < gn G.
  Hypothesis Hm0 : 0 < gm G.
  Hypothesis Hperm : Permutation perm (seq 0 (gn G)).
  Hypothesis Hsort : forall l, Permutation l (sort l).
  Let n := gn G.
  Let pi (i : nat) : nat := nth i perm 0.

  Lemma perm_len : length perm = n.
  Proof. apply Permutation_length in Hperm. now rewrite seq_length in Hperm. Qed.
  Lemma pi_lt i : i < n -> pi i < n.
  Proof. intros H. assert (In (pi i) (seq 0 n)) by (eapply Permutation_in; [exact Hperm|]; apply nth_In; rewrite perm_len; auto). apply in_seq in H0. lia. Qed.
  Lemma pi_inj i j : i < n -> j < n -> pi i = pi j -> i = j.
  Proof.
    intros Hi Hj E. assert (Hd : NoDup perm) by (eapply Permutation_NoDup; [apply Permutation_sym; exact Hperm|apply seq_NoDup]).
    rewrite (NoDup_nth perm 0) in Hd. apply Hd; auto; now rewrite perm_len.
  Qed.
  Definition inv (j : nat) : nat := match find (fun i => nth i perm 0 =? j) (seq 0 (gn G)) with Some i => i | None => 0 end.
  Lemma inv_ok j : j < n -> inv j < n /\ pi (inv j) = j.
  Proof.
    intros Hj. unfold inv. destruct (find _ _) as [i|] eqn:E.
    - apply find_some in E as [Hi E]. apply in_seq in Hi. apply Nat.eqb_eq in E. split; auto. unfold n. lia.
    - exfalso. assert (Hin : In j perm) by (eapply Permutation_in; [apply Permutation_sym; exact Hperm|]; apply in_seq; unfold n in Hj; lia).
      apply (In_nth _ _ 0) in Hin as (i & Hi & E2). rewrite perm_len in Hi. assert (Hs2 : In i (seq 0 (gn G))) by (apply in_seq; unfold n in Hi; lia).
      pose proof (find_none _ _ E i Hs2) as F. cbv beta in F. rewrite E2, Nat.eqb_refl in F. discriminate F.
  Qed.
  Lemma inv_pi i : i < n -> inv (pi i) = i.
  Proof. intros Hi. destruct (inv_ok (pi_lt Hi)) as [H E]. apply pi_inj; auto. Qed.
  Lemma map_pi order : Permutation order (seq 0 n) -> Permutation (map pi order) (seq 0 n).
  Proof.
    intros Hp. assert (E : perm = map pi (seq 0 n)).
    { rewrite <- perm_len. unfold pi. pose proof (map_nth_seq (fun x : nat => x) perm 0) as E. rewrite map_id in E. exact E. }
    eapply perm_trans; [apply Permutation_map; exact Hp|]. rewrite <- E. exact Hperm.
  Qed.
  Lemma map_inv : Permutation (map inv (seq 0 n)) (seq 0 n).
  Proof.
    eapply perm_trans; [apply Permutation_map, Permutation_sym, map_pi, Permutation_refl|]. rewrite map_map.
    rewrite (map_ext_in (fun x => inv (pi x)) (fun x => x)); [now rewrite map_id|]. intros i Hi. apply in_seq in Hi. apply inv_pi. lia.
  Qed.
  Definition ndeg (i : nat) : nat := length (neighbors G i).
  Definition degs : list nat := map (fun j => ndeg (inv j)) (seq 0 (gn G)).
  Lemma run_f_map {A} (f g : nat -> list A -> option (list A)) order : (forall i, In i order -> forall arr, g i arr = f (pi i) arr) ->
    forall arr, run_f g order arr = run_f f (map pi order) arr.
  Proof.
    induction order as [|i order IH]; intros H arr; simpl; auto. rewrite H by (simpl; auto). destruct (f (pi i) arr); auto.
    apply IH. intros; apply H; simpl; auto.
  Qed.
  Lemma degrees_eq order : Permutation order (seq 0 n) -> reorder_degrees G perm order = Some degs.
  Proof.
    intros Hp. unfold reorder_degrees.
    assert (E : map (fun i => (pm perm i, length (neighbors G i))) order = flat_map (fun i => [(pm perm i, ndeg i)]) order).
    { rewrite flat_map_concat_map. clear. induction order; simpl; auto. now rewrite IHorder. }
    rewrite E, run_stores_flat.
    rewrite (@run_f_map _ (fun j => run_stores [(j, ndeg (inv j))])).
    - assert (Ez : repeat 0 (gn G) = flat_map (fun _ => [0]) (seq 0 n) ++ []).
      { rewrite app_nil_r. fold n. clear. generalize 0 at 3. induction n as [|k IH]; intros b; simpl; auto. now rewrite <- IH. }
      rewrite Ez. rewrite (@blocks _ n (fun _ => [0]) (fun j => [ndeg (inv j)])).
      + f_equal. rewrite app_nil_r. unfold degs. fold n. rewrite flat_map_concat_map. clear. induction (seq 0 n); simpl; auto. now rewrite IHl.
      + auto.
      + intros j pre post Hj Hpre. assert (Ej : off (fun j => [ndeg (inv j)]) j = j).
        { unfold off. clear. rewrite <- (seq_length j 0) at 2. induction (seq 0 j); simpl; auto. }
        rewrite Ej in Hpre. cbn [run_stores app]. rewrite <- Hpre.
        destruct (Nat.ltb_spec (length pre) (length (pre ++ 0 :: post))) as [_|L]; [|rewrite app_length in L; simpl in L; lia].
        now rewrite lset_app.
      + apply map_pi; auto.
    - intros i Hi arr. apply (Permutation_in _ Hp) in Hi. apply in_seq in Hi. unfold pm. fold (pi i). rewrite inv_pi by lia. reflexivity.
  Qed.
  Definition moved (j : nat) : list nat := map (fun x => nth (fst x) perm 0) (neighbors G (inv j)).
  Lemma off_moved j : off moved j = list_sum (map (fun j => ndeg (inv j)) (seq 0 j)).
  Proof. unfold off. f_equal. apply map_ext. intros k. unfold moved, ndeg. apply map_length. Qed.
  Lemma total : list_sum degs = gm G.
  Proof.
    unfold degs. destruct Hwf as [_ E]. rewrite E. rewrite <- (map_map inv ndeg).
    assert (Hp : Permutation (map ndeg (map inv (seq 0 n))) (map ndeg (seq 0 n))) by apply Permutation_map, map_inv.
    assert (Hl : forall a b : list nat, Permutation a b -> list_sum a = list_sum b) by (induction 1; simpl; lia).
    unfold n in Hp. rewrite (Hl _ _ Hp). f_equal. apply map_ext_in. intros v Hv. apply in_seq in Hv. apply wf_degree; auto. lia.
  Qed.
  Lemma sort_nil : sort [] = [].
  Proof. apply Permutation_nil, Hsort. Qed.
  Lemma reorder_all_run offs order : forall es, reorder_all G perm sort offs order es = run_f (fun i => reorder_one G perm sort offs i) order es.
  Proof. induction order as [|i order IH]; intros es; simpl; auto. destruct (reorder_one G perm sort offs i es); auto. Qed.
  Lemma all_eq order : Permutation order (seq 0 n) ->
    reorder_all G perm sort (scan_excl 0 degs) order (repeat 0 (gm G)) = Some (flat_map moved (seq 0 (gn G))).
  Proof.
    intros Hp. rewrite reorder_all_run. set (offs := scan_excl 0 degs).
    rewrite (@run_f_map _ (fun j => reorder_one G perm sort offs (inv j))).
    2:{ intros i Hi arr. apply (Permutation_in _ Hp) in Hi. apply in_seq in Hi. rewrite inv_pi by lia. reflexivity. }
    set (zero j := repeat 0 (ndeg (inv j))).
    assert (HL : forall j, length (zero j) = length (moved j)) by (intros; unfold zero, moved, ndeg; now rewrite repeat_length, map_length).
    assert (Ez : repeat 0 (gm G) = flat_map zero (seq 0 n) ++ []).
    { rewrite app_nil_r, <- total. unfold degs, zero, n. apply repeat_flat. }
    rewrite Ez, (@blocks _ n zero moved HL); [now rewrite app_nil_r| |apply map_pi; auto].
    intros j pre post Hj Hpre. unfold reorder_one, pm. destruct (inv_ok Hj) as [Hij Epi]. unfold pi in Epi. rewrite Epi.
    assert (Eo : nth j offs 0 = length pre) by (rewrite Hpre, off_moved; unfold offs, degs; apply scan_off; exact Hj).
    assert (Enx : (if j =? gn G - 1 then gm G else nth (j + 1) offs 0) = length pre + ndeg (inv j)).
    { transitivity (list_sum (map (fun j => ndeg (inv j)) (seq 0 (j + 1)))).
      - destruct (Nat.eqb_spec j (gn G - 1)) as [E|E].
        + rewrite <- total. unfold degs. replace (j + 1) with (gn G) by lia. reflexivity.
        + unfold offs, degs. apply scan_off. unfold n in Hj. lia.
      - rewrite seq_snoc, map_app, list_sum_app, Hpre, off_moved. simpl. lia. }
    rewrite Eo, Enx. fold (moved j).
    assert (El : length (neighbors G (inv j)) = length (moved j)) by (unfold moved; now rewrite map_length).
    rewrite El, stores_range by apply HL. unfold sort_range, ndeg. rewrite El, Nat.sub_diag. cbn [firstn]. rewrite sort_nil. cbn [app].
    now rewrite firstn_skipn.
  Qed.
  Definition H' : csr unit :=
    {| gn := gn G; gm := gm G; goff := scan_excl 0 degs; gdeg := degs; gngh := map (fun v => (v, tt)) (flat_map moved (seq 0 (gn G))) |}.
  Lemma moved_len j : length (moved j) = ndeg (inv j).
  Proof. unfold moved, ndeg. apply map_length. Qed.
  Lemma H'_neighbors j : j < gn G -> neighbors H' j = map (fun v => (v, tt)) (moved j).
  Proof.
    intros Hj. unfold neighbors, H'. cbn [goff gdeg gngh]. unfold degs at 1 2. rewrite scan_off by exact Hj.
    rewrite (nth_mseq (fun j => ndeg (inv j))) by exact Hj. rewrite skipn_map, firstn_map. f_equal.
    pose proof (segment_flat moved Hj) as E. rewrite firstn_map_seq in E by lia. rewrite moved_len in E.
    rewrite (map_ext _ (fun j => ndeg (inv j))) in E by apply moved_len. exact E.
  Qed.
  Lemma H'_wf : wf_graph H'.
  Proof.
    split; cbn [H' gn gm goff gdeg gngh].
    - intros v Hv. unfold degs at 1 2. rewrite scan_off by exact Hv. rewrite (nth_mseq (fun j => ndeg (inv j))) by exact Hv.
      rewrite map_length, flat_map_length'. rewrite (map_ext (fun i => length (moved i)) (fun j => ndeg (inv j))) by apply moved_len.
      replace (gn G) with (v + 1 + (gn G - (v + 1))) by lia. rewrite seq_app, map_app, list_sum_app, seq_snoc, map_app, list_sum_app. simpl. lia.
    - rewrite <- total. f_equal. unfold degs at 1. apply map_ext_in. intros v Hv. apply in_seq in Hv. unfold degs.
      rewrite (nth_mseq (fun j => ndeg (inv j))) by lia. reflexivity.
  Qed.
  Lemma lines_map {A} (k : A -> item) (g : A -> list nat) l : (forall x, text (k x) = g x) ->
    flat_map (fun a => text a ++ [10]) (map k l) = flat_map line (map g l).
  Proof. intros H. induction l as [|x l IH]; simpl; auto. now rewrite H, IH. Qed.
  Theorem reordered order1 order2 o1 o2 :
    Permutation order1 (seq 0 n) -> Permutation order2 (seq 0 n) -> Permutation o1 (seq 0 (n - 1)) -> Permutation o2 (seq 0 (gm G - 1)) ->
    exists s G', randomReorder G perm sort order1 order2 o1 o2 = Some s /\ read_unweighted s = Some G' /\ gn G' = gn G /\ gm G' = gm G /\
      forall i, i < gn G -> neighbors G' (nth i perm 0) = map (fun x => (nth (fst x) perm 0, tt)) (neighbors G i).
  Proof.
    intros P1 P2 P3 P4. destruct (read_write_unweighted H'_wf) as (G' & HR & E1 & E2 & _ & HN).
    exists (write_unweighted H'), G'. split; [|split; [exact HR|split; [exact E1|split; [exact E2|]]]].
    - unfold randomReorder. rewrite degrees_eq, all_eq by auto.
      assert (Ed : length (scan_excl 0 degs) = n) by (rewrite scan_excl_length; unfold degs; rewrite map_length, seq_length; reflexivity).
      assert (Ee : length (flat_map moved (seq 0 (gn G))) = gm G).
      { rewrite flat_map_length', <- total. unfold degs. f_equal. apply map_ext. apply moved_len. }
      rewrite (@to_string_correct (map U64 _)), (@to_string_correct (map U32 _)).
      + rewrite (@lines_map _ U64 print), (@lines_map _ U32 print) by auto. unfold write_unweighted, write_common.
        change (gn H') with (gn G). change (gm H') with (gm G).
        assert (Eg : map (fun i => nth i (gdeg H') 0) (seq 0 (gn G)) = degs).
        { unfold degs at 1. apply map_ext_in. intros j Hj. apply in_seq in Hj. cbn [H' gdeg]. unfold degs. now rewrite (nth_mseq (fun j => ndeg (inv j))) by lia. }
        assert (Eh : flat_map (fun i => map (fun x => print (fst x)) (neighbors H' i)) (seq 0 (gn G)) = map print (flat_map moved (seq 0 (gn G)))).
        { rewrite !flat_map_concat_map, concat_map, map_map. f_equal. apply map_ext_in. intros j Hj. apply in_seq in Hj.
          rewrite H'_neighbors by lia. now rewrite map_map. }
        rewrite Eg, Eh. cbn [flat_map]. now rewrite flat_map_app.
      + intros E. apply (f_equal (@length _)) in E. rewrite map_length, Ee in E. simpl in E. lia.
      + apply Forall_forall. intros a Ha. apply in_map_iff in Ha as (x & <- & Hx). apply in_flat_map in Hx as (j & Hj & Hx). apply in_seq in Hj.
        unfold moved in Hx. apply in_map_iff in Hx as ([v w] & <- & Hx). cbn [fits fst]. destruct (@inv_ok j) as [Hi _]; [unfold n; lia|].
        assert (Hv : v < gn G) by (eapply Ht; [exact Hi|exact Hx]). pose proof (@pi_lt v Hv) as Hl. unfold pi, n in Hl. unfold small_ids in Hs. lia.
      + rewrite map_length, Ee. exact P4.
      + intros E. apply (f_equal (@length _)) in E. rewrite map_length, Ed in E. simpl in E. unfold n in E. lia.
      + apply Forall_forall. intros a Ha. apply in_map_iff in Ha as (x & <- & Hx). cbn [fits].
        apply (In_nth _ _ 0) in Hx as (j & Hj & <-). rewrite Ed in Hj. unfold degs. rewrite scan_off by exact Hj.
        assert (list_sum (map (fun j => ndeg (inv j)) (seq 0 j)) <= gm G); [|lia]. rewrite <- total. unfold degs, n in *.
        replace (gn G) with (j + (gn G - j)) by lia. rewrite seq_app, map_app, list_sum_app. lia.
      + rewrite map_length, Ed. exact P3.
    - intros i Hi. cbn [H' gn] in HN. pose proof (@pi_lt i Hi) as Hl. unfold pi, n in Hl. rewrite HN, H'_neighbors by auto.
      unfold moved. pose proof (@inv_pi i Hi) as Ei. unfold pi in Ei. rewrite Ei, map_map. reflexivity.
  Qed.
End Reorder.

(* -- order of the edges --------------------------------------------------------------------------------------- *)
Lemma edges_lex {W} (G : csr W) : lists_sorted G -> StronglySorted lex_le (edges_of G).
Proof.
  intros H. unfold edges_of.
  assert (Q : forall k b, b + k <= gn G -> StronglySorted lex_le (flat_map (fun u => map (fun x => (u, fst x)) (neighbors G u)) (seq b k))).
  { induction k as [|k IH]; intros b Hb; simpl; [constructor|].
    assert (Hr : forall e, In e (flat_map (fun u => map (fun x => (u, fst x)) (neighbors G u)) (seq (S b) k)) -> b < fst e).
    { intros e He. apply in_flat_map in He as (u & Hu & He). apply in_seq in Hu. apply in_map_iff in He as (x & <- & _). simpl. lia. }
    assert (Hk : StronglySorted lex_le (flat_map (fun u => map (fun x => (u, fst x)) (neighbors G u)) (seq (S b) k))) by (apply IH; lia).
    assert (Hv : StronglySorted le (map fst (neighbors G b))) by (apply H; lia).
    induction (neighbors G b) as [|x l IHl]; simpl; auto. simpl in Hv. inversion Hv; subst. constructor; [apply IHl; auto|].
    apply Forall_app. split.
    - apply Forall_forall. intros e He. apply in_map_iff in He as (y & <- & Hy). right. simpl. split; auto.
      rewrite Forall_forall in H3. apply H3. apply in_map. exact Hy.
    - apply Forall_forall. intros e He. left. simpl. apply Hr. exact He. }
  apply Q. lia.
Qed.
Lemma listed_all {W} (G : csr W) : wf_graph G -> listed G false = edges_of G.
Proof.
  intros Hwf. unfold listed. assert (E : filter (sel false) (edges_of G) = edges_of G) by (clear; induction (edges_of G); simpl; auto; now f_equal).
  rewrite E, (edges_length Hwf), Nat.sub_diag. simpl. apply app_nil_r.
Qed.
Lemma no_edges_none {W} (G : csr W) ds hd order order2 : wf_graph G -> gm G = 0 -> Permutation order (seq 0 (gn G)) -> print_edge_list G ds hd order order2 = None.
Proof.
  intros Hwf Hm Hp. unfold print_edge_list. rewrite (@edge_array_eq _ _ Hwf _ _ Hp). fold (listed G ds).
  pose proof (listed_length Hwf ds) as E. rewrite Hm in E. apply length_zero_iff_nil in E. rewrite E. reflexivity.
Qed.
