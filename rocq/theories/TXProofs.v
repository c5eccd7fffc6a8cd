From Coq Require Import NArith ZArith Sorted.
From Verif Require Import Base ListUtil GBModel GBSpec GBProofs TXModel TXSpec.
Open Scope nat_scope.

(* -- characters and tokens ----------------------------------------------------------- *)
Definition word (t : list char) : Prop := t <> [] /\ Forall (fun c => is_space c = false) t.
Lemma tokens_word t : forall cur s, Forall (fun c => is_space c = false) t -> tokens_from cur (t ++ s) = tokens_from (cur ++ t) s.
Proof.
  induction t as [|c t IH]; intros cur s H; simpl; [now rewrite app_nil_r|].
  inversion H; subst. rewrite H2, IH by auto. now rewrite <- app_assoc.
Qed.
Lemma tokens_lines ts : Forall word ts -> map_tokens (flat_map line ts) = ts.
Proof.
  unfold map_tokens. induction 1 as [|t ts [Hne Ht] _ IH]; simpl; auto.
  unfold line. rewrite <- app_assoc, tokens_word by auto. simpl. destruct t as [|c t]; [congruence|]. cbn [tokens_from app length Nat.eqb]. simpl. f_equal. exact IH.
Qed.

Lemma digits_ok fuel : forall x, (x < 2 ^ N.of_nat fuel)%N -> 0 < fuel ->
  word (digits fuel x) /\ Forall (fun c => 48 <= c < 58) (digits fuel x) /\ parse_N (digits fuel x) = x.
Proof.
  induction fuel as [|fuel IH]; intros x Hx Hf; [lia|]. cbn [digits].
  assert (Hsp : forall c, 48 <= c < 58 -> is_space c = false).
  { intros c Hc. unfold is_space. destruct (Nat.eqb_spec c 32); [lia|]. destruct (Nat.leb_spec c 13); [lia|]. simpl. now rewrite andb_false_r. }
  destruct (N.ltb_spec x 10) as [H|H].
  - assert (48 <= 48 + N.to_nat x < 58) by lia. split; [split; [discriminate|]|split].
    + constructor; auto.
    + constructor; auto.
    + unfold parse_N. cbn [fold_left]. lia.
  - assert (Hf' : 0 < fuel). { destruct fuel; [simpl in Hx; lia|lia]. }
    destruct (IH (x / 10)%N) as (H1 & H2 & H3); auto.
    { apply N.div_lt_upper_bound; [lia|]. replace (N.of_nat (S fuel)) with (N.succ (N.of_nat fuel)) in Hx by lia.
      rewrite N.pow_succ_r' in Hx. lia. }
    assert (Hm : (x mod 10 < 10)%N) by (apply N.mod_lt; lia).
    assert (48 <= 48 + N.to_nat (x mod 10) < 58) by (clear -Hm; generalize dependent (x mod 10)%N; intros; lia).
    split; [split|split].
    + intros E. apply app_eq_nil in E as [_ E]. discriminate.
    + apply Forall_app. split; [apply H1|]. constructor; auto.
    + apply Forall_app. split; auto.
    + unfold parse_N in *. rewrite fold_left_app, H3. cbn [fold_left].
      rewrite Nat.add_comm, Nat.add_sub, N2Nat.id. symmetry. apply N.div_mod'.
Qed.
Lemma pos_size p : (Npos p < 2 ^ N.of_nat (Pos.size_nat p))%N.
Proof.
  induction p as [p IH|p IH|]; cbn [Pos.size_nat]; try (rewrite Nat2N.inj_succ, N.pow_succ_r'; lia).
Qed.
Lemma size_bound x : (x < 2 ^ N.of_nat (S (N.size_nat x)))%N.
Proof.
  rewrite Nat2N.inj_succ, N.pow_succ_r'. destruct x as [|p]; [simpl; lia|]. cbn [N.size_nat].
  pose proof (pos_size p). lia.
Qed.
Lemma print_N_ok x : word (print_N x) /\ Forall (fun c => 48 <= c < 58) (print_N x) /\ parse_N (print_N x) = x.
Proof. unfold print_N. apply digits_ok; [apply size_bound|lia]. Qed.
Lemma print_ok x : word (print x) /\ parse (print x) = x.
Proof.
  unfold print, parse. destruct (print_N_ok (N.of_nat x)) as (H1 & _ & H2). split; auto. rewrite H2. apply Nat2N.id.
Qed.
Lemma word_print_Z z : word (print_Z z).
Proof.
  unfold print_Z. destruct (print_N_ok (Z.abs_N z)) as ([H1 H2] & _). destruct (z <? 0)%Z; [|split; auto].
  split; [discriminate|]. constructor; auto.
Qed.
Lemma stof_print z : stof (print_Z z) = f32 z.
Proof.
  unfold print_Z. destruct (print_N_ok (Z.abs_N z)) as ([H1 _] & H2 & H3). destruct (Z.ltb_spec z 0) as [H|H].
  - unfold stof. rewrite H3. f_equal. lia.
  - destruct (print_N (Z.abs_N z)) as [|c t] eqn:E; [congruence|]. assert (Hc : c <> 45). { inversion H2; subst. lia. }
    transitivity (f32 (Z.of_N (parse_N (c :: t)))).
    + unfold stof. do 46 (destruct c as [|c]; [solve [reflexivity|exfalso; apply Hc; reflexivity]|]). reflexivity.
    + rewrite H3. f_equal. lia.
Qed.
Lemma f32_exact z : (Z.abs z <= 2 ^ 24)%Z -> f32 z = z.
Proof.
  intros H. unfold f32. destruct (Z.ltb_spec (Z.abs z) (2 ^ 24)) as [H1|H1]; auto.
  assert (E : Z.abs z = (2 ^ 24)%Z) by lia. rewrite E. change (Z.sgn z * 2 ^ 24 = z)%Z. rewrite <- E. lia.
Qed.

(* -- lists ---------------------------------------------------------------------------- *)
Lemma scan_excl_length acc l : length (scan_excl acc l) = length l.
Proof. revert acc; induction l as [|x l IH]; intros acc; simpl; auto. Qed.
Lemma scan_excl_nth l : forall acc i, i <= length l -> nth i (scan_excl acc l ++ [acc + list_sum l]) 0 = acc + list_sum (firstn i l).
Proof.
  induction l as [|x l IH]; intros acc i Hi; simpl in *.
  - replace i with 0 by lia. simpl. lia.
  - destruct i as [|i]; simpl; [lia|]. replace (acc + (x + list_sum l)) with (acc + x + list_sum l) by lia. rewrite IH by lia. lia.
Qed.
Lemma map_nth_range {A B} (f : A -> B) (l : list A) d k m : k + m <= length l ->
  map (fun i => f (nth (i + k) l d)) (seq 0 m) = map f (firstn m (skipn k l)).
Proof.
  revert l; induction k as [|k IH]; intros l H.
  - simpl. transitivity (map f (map (fun i => nth i l d) (seq 0 m))).
    + rewrite map_map. apply map_ext. intros i. now rewrite Nat.add_0_r.
    + f_equal. clear f. revert l H. induction m as [|m IHm]; intros l H; simpl; auto. destruct l as [|x l]; simpl in H; [lia|].
      simpl. f_equal. rewrite <- seq_shift, map_map. rewrite <- (IHm l) by lia. apply map_ext. reflexivity.
  - destruct l as [|x l]; simpl in H; [lia|]. simpl skipn. rewrite <- IH by lia. apply map_ext. intros i.
    now rewrite Nat.add_succ_r.
Qed.
Lemma segment_flat {A} (f : nat -> list A) n : forall v, v < n ->
  firstn (length (f v)) (skipn (list_sum (firstn v (map (fun i => length (f i)) (seq 0 n)))) (flat_map f (seq 0 n))) = f v.
Proof.
  assert (H : forall k s v, v < k ->
     firstn (length (f (s + v))) (skipn (list_sum (firstn v (map (fun i => length (f i)) (seq s k)))) (flat_map f (seq s k))) = f (s + v)).
  { induction k as [|k IH]; intros s v Hv; [lia|]. simpl. destruct v as [|v].
    - simpl. rewrite Nat.add_0_r. rewrite firstn_app, Nat.sub_diag, firstn_all. simpl. now rewrite app_nil_r.
    - simpl. rewrite skipn_app. rewrite skipn_all2 by lia. simpl.
      replace (length (f s) + list_sum (firstn v (map (fun i => length (f i)) (seq (S s) k))) - length (f s))
        with (list_sum (firstn v (map (fun i => length (f i)) (seq (S s) k)))) by lia.
      rewrite Nat.add_succ_r. apply (IH (S s) v). lia. }
  intros v Hv. apply (H n 0 v Hv).
Qed.
Lemma flat_map_length' {A} (f : nat -> list A) l : length (flat_map f l) = list_sum (map (fun i => length (f i)) l).
Proof. induction l as [|x l IH]; simpl; auto. now rewrite app_length, IH. Qed.
Lemma sum_firstn_le l i : list_sum (firstn i l) <= list_sum l.
Proof. rewrite <- (firstn_skipn i l) at 2. rewrite list_sum_app. lia. Qed.
Lemma sum_firstn_S l i : i < length l -> list_sum (firstn (S i) l) = list_sum (firstn i l) + nth i l 0.
Proof.
  revert i; induction l as [|x l IH]; intros i H; simpl in H; [lia|]. destruct i as [|i].
  - simpl. lia.
  - change (firstn (S (S i)) (x :: l)) with (x :: firstn (S i) l). change (firstn (S i) (x :: l)) with (x :: firstn i l).
    cbn [list_sum fold_right nth]. change (fold_right Nat.add 0) with list_sum. rewrite IH by lia. lia.
Qed.

Lemma wf_degree {W} (G : csr W) v : wf_graph G -> v < gn G -> length (neighbors G v) = nth v (gdeg G) 0.
Proof.
  intros [H _] Hv. unfold neighbors. rewrite firstn_length, skipn_length. specialize (H v Hv). lia.
Qed.

(* what the readers make of the prefix sums and the concatenated lists *)
Lemma rebuild {W V} (G : csr W) (h : nat * W -> nat * V) : wf_graph G ->
  let degs := map (fun i => nth i (gdeg G) 0) (seq 0 (gn G)) in
  let G' := csr_of_offsets (gn G) (gm G) (scan_excl 0 degs ++ [gm G]) (flat_map (fun i => map h (neighbors G i)) (seq 0 (gn G))) in
  tiled G' /\ forall v, v < gn G -> neighbors G' v = map h (neighbors G v).
Proof.
  intros Hwf degs G'. pose proof Hwf as [Hr Hm].
  set (f := fun i => map h (neighbors G i)).
  assert (Ed : degs = map (fun i => length (f i)) (seq 0 (gn G))).
  { unfold degs, f. apply map_ext_in. intros i Hi. apply in_seq in Hi. rewrite map_length, wf_degree; auto. lia. }
  assert (Hl : length degs = gn G) by (unfold degs; now rewrite map_length, seq_length).
  fold degs in Hm.
  assert (Ho : forall i, i <= gn G -> nth i (scan_excl 0 degs ++ [gm G]) 0 = list_sum (firstn i degs)).
  { intros i Hi. rewrite Hm. apply (scan_excl_nth degs 0). lia. }
  assert (Eo : forall i, i < gn G -> nth i (goff G') 0 = list_sum (firstn i degs)).
  { intros i Hi. unfold G', csr_of_offsets. cbn [goff]. rewrite firstn_app, scan_excl_length, Hl, Nat.sub_diag. simpl. rewrite app_nil_r.
    rewrite firstn_all2 by (rewrite scan_excl_length; lia). rewrite <- (Ho i) by lia. rewrite app_nth1; auto. rewrite scan_excl_length. lia. }
  assert (Eg : forall i, i < gn G -> nth i (gdeg G') 0 = nth i degs 0).
  { intros i Hi. unfold G', csr_of_offsets. cbn [gdeg]. rewrite nth_map_seq by auto. rewrite !Ho by lia. rewrite Nat.add_1_r, sum_firstn_S by lia. lia. }
  split.
  - unfold tiled. split; [|split; [|split; [|split]]].
    + unfold G', csr_of_offsets. cbn [goff gn]. rewrite firstn_length, app_length, scan_excl_length. simpl. lia.
    + unfold G', csr_of_offsets. cbn [gdeg gn]. now rewrite map_length, seq_length.
    + unfold G', csr_of_offsets. cbn [gngh gm]. rewrite flat_map_length'. rewrite Hm, Ed. reflexivity.
    + intros H. rewrite Eo by auto. reflexivity.
    + change (gn G') with (gn G). change (gm G') with (gm G). intros v Hv. rewrite Eo, Eg by auto. rewrite <- sum_firstn_S by lia.
      destruct (Nat.eqb_spec v (gn G - 1)) as [E|E].
      * rewrite firstn_all2 by lia. auto.
      * rewrite Eo by lia. now rewrite Nat.add_1_r.
  - intros v Hv. unfold neighbors at 1. rewrite Eo, Eg by auto. change (gngh G') with (flat_map f (seq 0 (gn G))).
    rewrite Ed. rewrite nth_map_seq by auto. apply (segment_flat f Hv).
Qed.

(* -- the two readers -------------------------------------------------------------------- *)
Lemma words_common {W} h (G : csr W) : word h -> Forall word (write_common h G).
Proof.
  intros Hh. unfold write_common. repeat (constructor; [auto; apply print_ok|]). apply Forall_app. split.
  - apply Forall_forall. intros t Ht. apply in_map_iff in Ht as (x & <- & _). apply print_ok.
  - apply Forall_forall. intros t Ht. apply in_flat_map in Ht as (v & _ & Ht). apply in_map_iff in Ht as (x & <- & _). apply print_ok.
Qed.
Lemma tok_ids {W} (G : csr W) tl : wf_graph G ->
  let degs := map (fun i => nth i (gdeg G) 0) (seq 0 (gn G)) in
  let A := map print (scan_excl 0 degs) in
  let B := flat_map (fun i => map (fun x => print (fst x)) (neighbors G i)) (seq 0 (gn G)) in
  length A = gn G /\ length B = gm G /\
    (forall h1 h2 h3, map (fun i => parse (tok (h1 :: h2 :: h3 :: (A ++ B) ++ tl) (i + 3))) (seq 0 (gn G)) = scan_excl 0 degs) /\
    (forall h1 h2 h3, map (fun i => parse (tok (h1 :: h2 :: h3 :: (A ++ B) ++ tl) (i + gn G + 3))) (seq 0 (gm G)) =
     flat_map (fun i => map fst (neighbors G i)) (seq 0 (gn G))).
Proof.
  intros Hwf degs A B. pose proof Hwf as [_ Hm]. fold degs in Hm.
  assert (LA : length A = gn G) by (unfold A, degs; now rewrite map_length, scan_excl_length, map_length, seq_length).
  assert (LB : length B = gm G).
  { unfold B. rewrite flat_map_length', Hm. unfold degs. f_equal. apply map_ext_in. intros i Hi. apply in_seq in Hi.
    rewrite map_length, wf_degree; auto. lia. }
  assert (Hpp : forall l, map parse (map print l) = l).
  { intros l. rewrite map_map. rewrite <- (map_id l) at 2. apply map_ext. intros x. apply print_ok. }
  split; auto. split; auto. split; intros h1 h2 h3.
  - unfold tok. rewrite (@map_nth_range _ _ parse _ [] 3 (gn G)) by (simpl; rewrite !app_length; lia). simpl skipn.
    rewrite <- app_assoc, firstn_app, LA, Nat.sub_diag. simpl firstn. rewrite app_nil_r, firstn_all2 by lia. apply Hpp.
  - unfold tok. assert (E : forall i, i + gn G + 3 = i + (gn G + 3)) by (intros; lia).
    erewrite map_ext by (intros i; rewrite (E i); reflexivity).
    rewrite (@map_nth_range _ _ parse _ [] (gn G + 3) (gm G)) by (simpl; rewrite !app_length; lia).
    rewrite (Nat.add_comm (gn G)). simpl skipn. rewrite <- app_assoc, skipn_app, LA, Nat.sub_diag. rewrite skipn_all2 by lia. simpl.
    rewrite firstn_app, LB, Nat.sub_diag. simpl. rewrite app_nil_r, firstn_all2 by lia. unfold B.
    clear. induction (seq 0 (gn G)) as [|i l IH]; simpl; auto. rewrite map_app, IH. f_equal. rewrite map_map. apply map_ext. intros x. apply print_ok.
Qed.

Lemma read_write_unweighted (G : csr unit) : wf_graph G ->
  exists G', read_unweighted (write_unweighted G) = Some G' /\ gn G' = gn G /\ gm G' = gm G /\ tiled G' /\
    forall v, v < gn G -> neighbors G' v = neighbors G v.
Proof.
  intros Hwf. unfold read_unweighted, write_unweighted. rewrite tokens_lines by (apply words_common; split; [discriminate|]; repeat constructor).
  destruct (tok_ids [] Hwf) as (LA & LB & E1 & E2). unfold write_common.
  set (A := map print (scan_excl 0 (map (fun i => nth i (gdeg G) 0) (seq 0 (gn G))))) in *.
  set (B := flat_map (fun i => map (fun x => print (fst x)) (neighbors G i)) (seq 0 (gn G))) in *.
  assert (E3 : length (header_adj :: print (gn G) :: print (gm G) :: A ++ B) = gn G + gm G + 3) by (simpl; rewrite app_length; lia).
  rewrite E3. destruct (Nat.ltb_spec (gn G + gm G + 3) 3); [lia|].
  change (tok (header_adj :: print (gn G) :: print (gm G) :: A ++ B) 1) with (print (gn G)).
  change (tok (header_adj :: print (gn G) :: print (gm G) :: A ++ B) 2) with (print (gm G)).
  destruct (print_ok (gn G)) as [_ ->]. destruct (print_ok (gm G)) as [_ ->].
  rewrite Nat.ltb_irrefl. eexists. split; [reflexivity|]. rewrite <- (app_nil_r (A ++ B)). rewrite E1.
  assert (E4 : map (fun i => (parse (tok (header_adj :: print (gn G) :: print (gm G) :: (A ++ B) ++ []) (i + gn G + 3)), tt)) (seq 0 (gm G)) =
    flat_map (fun i => map (fun x : nat * unit => x) (neighbors G i)) (seq 0 (gn G))).
  { rewrite <- (map_map (fun i => parse (tok (header_adj :: print (gn G) :: print (gm G) :: (A ++ B) ++ []) (i + gn G + 3))) (fun x => (x, tt))).
    rewrite E2. clear. induction (seq 0 (gn G)) as [|i l IH]; simpl; auto. rewrite map_app, IH. f_equal. rewrite map_map. apply map_ext. intros [x []]. reflexivity. }
  rewrite E4. destruct (@rebuild unit unit G (fun x => x) Hwf) as [H1 H2]. split; auto. split; auto. split; auto.
  intros v Hv. rewrite H2 by auto. apply map_id.
Qed.

Lemma all_weights_ok (l : list (nat * Z)) : Forall (fun x => to_weight (snd x) = Some (snd x)) l ->
  all_weights (map (fun x => (fst x, to_weight (snd x))) l) = Some l.
Proof.
  induction 1 as [|[v w] l Hx _ IH]; simpl; auto. simpl in Hx. rewrite Hx, IH. reflexivity.
Qed.

Lemma map_combine {A B C} (f : nat -> A) (g : nat -> B) (h : A * B -> C) l :
  map (fun i => h (f i, g i)) l = map h (combine (map f l) (map g l)).
Proof. induction l as [|x l IH]; simpl; auto. now rewrite IH. Qed.
Lemma combine_flat {W} (f : nat -> list (nat * W)) l :
  combine (flat_map (fun i => map fst (f i)) l) (flat_map (fun i => map snd (f i)) l) = flat_map f l.
Proof.
  induction l as [|i l IH]; simpl; auto. rewrite <- IH. clear IH. generalize (flat_map (fun i => map fst (f i)) l) (flat_map (fun i => map snd (f i)) l).
  intros a b. induction (f i) as [|[u w] r IH]; simpl; auto. now rewrite IH.
Qed.
Lemma read_write_weighted (G : csr Z) : wf_graph G ->
  (forall v u w, v < gn G -> In (u, w) (neighbors G v) -> to_weight (f32 w) = Some (f32 w)) ->
  exists G', read_weighted (write_weighted G) = Some G' /\ gn G' = gn G /\ gm G' = gm G /\ tiled G' /\
    forall v, v < gn G -> neighbors G' v = map (fun x => (fst x, f32 (snd x))) (neighbors G v).
Proof.
  intros Hwf Hw. unfold read_weighted, write_weighted.
  rewrite tokens_lines.
  2:{ apply Forall_app. split; [apply words_common; split; [discriminate|]; repeat constructor|].
      apply Forall_forall. intros t Ht. apply in_flat_map in Ht as (v & _ & Ht). apply in_map_iff in Ht as (x & <- & _). apply word_print_Z. }
  set (C := flat_map (fun i => map (fun x => print_Z (snd x)) (neighbors G i)) (seq 0 (gn G))).
  destruct (tok_ids C Hwf) as (LA & LB & E1 & E2). unfold write_common.
  set (A := map print (scan_excl 0 (map (fun i => nth i (gdeg G) 0) (seq 0 (gn G))))) in *.
  set (B := flat_map (fun i => map (fun x => print (fst x)) (neighbors G i)) (seq 0 (gn G))) in *.
  assert (LC : length C = gm G).
  { rewrite <- LB. unfold B, C. rewrite !flat_map_length'. f_equal. apply map_ext. intros i. now rewrite !map_length. }
  change ((header_wgh :: print (gn G) :: print (gm G) :: A ++ B) ++ C) with (header_wgh :: print (gn G) :: print (gm G) :: (A ++ B) ++ C).
  set (tk := header_wgh :: print (gn G) :: print (gm G) :: (A ++ B) ++ C) in *.
  assert (E3 : length tk = gn G + 2 * gm G + 3) by (unfold tk; simpl; rewrite !app_length; lia).
  rewrite E3. destruct (Nat.ltb_spec (gn G + 2 * gm G + 3) 3); [lia|].
  change (tok tk 1) with (print (gn G)). change (tok tk 2) with (print (gm G)).
  destruct (print_ok (gn G)) as [_ ->]. destruct (print_ok (gm G)) as [_ ->].
  replace (gn G + 2 * gm G + 3 - 1) with (gn G + 2 * gm G + 2) by lia. rewrite Nat.eqb_refl. cbn [negb].
  specialize (E1 header_wgh (print (gn G)) (print (gm G))). fold tk in E1. rewrite E1.
  specialize (E2 header_wgh (print (gn G)) (print (gm G))). fold tk in E2.
  assert (E5 : map (fun i => stof (tok tk (i + gn G + gm G + 3))) (seq 0 (gm G)) = flat_map (fun i => map (fun x => f32 (snd x)) (neighbors G i)) (seq 0 (gn G))).
  { unfold tok. assert (E : forall i, i + gn G + gm G + 3 = i + (3 + (gn G + gm G))) by (intros; lia).
    erewrite map_ext by (intros i; rewrite (E i); reflexivity).
    rewrite (@map_nth_range _ _ stof _ [] (3 + (gn G + gm G)) (gm G)) by lia.
    unfold tk. simpl skipn. rewrite skipn_app, app_length, LA, LB, Nat.sub_diag. rewrite skipn_all2 by (rewrite app_length; lia). simpl.
    rewrite firstn_all2 by lia. unfold C. clear. induction (seq 0 (gn G)) as [|i l IH]; simpl; auto. rewrite map_app, IH. f_equal.
    rewrite map_map. apply map_ext. intros x. apply stof_print. }
  set (es := flat_map (fun i => map (fun x => (fst x, f32 (snd x))) (neighbors G i)) (seq 0 (gn G))).
  assert (E6 : map (fun i => (parse (tok tk (i + gn G + 3)), to_weight (stof (tok tk (i + gn G + gm G + 3))))) (seq 0 (gm G)) =
               map (fun x => (fst x, to_weight (snd x))) es).
  { rewrite (@map_combine nat Z _ (fun i => parse (tok tk (i + gn G + 3))) (fun i => stof (tok tk (i + gn G + gm G + 3))) (fun x => (fst x, to_weight (snd x)))).
    f_equal. rewrite E2, E5. unfold es. rewrite <- (combine_flat (fun i => map (fun x => (fst x, f32 (snd x))) (neighbors G i))).
    f_equal; clear; induction (seq 0 (gn G)) as [|i l IH]; simpl; auto; rewrite IH, map_map; reflexivity. }
  rewrite E6, all_weights_ok.
  2:{ apply Forall_forall. intros [u w] Hx. unfold es in Hx. apply in_flat_map in Hx as (v & Hv & Hx). apply in_seq in Hv.
      apply in_map_iff in Hx as ([u' w'] & E & Hx). injection E as <- <-. simpl. eapply Hw; [|exact Hx]. lia. }
  eexists. split; [reflexivity|]. destruct (@rebuild Z Z G (fun x => (fst x, f32 (snd x))) Hwf) as [H1 H2]. auto.
Qed.

(* -- transposition --------------------------------------------------------------------- *)
Lemma suffix_min_length m l : length (suffix_min m l) = length l.
Proof. induction l as [|x l IH]; simpl; auto. Qed.
Lemma suffix_min_spec m l : forall i, i < length l ->
  nth i (suffix_min m l) 0 <= m /\
    (forall j, i <= j < length l -> nth i (suffix_min m l) 0 <= nth j l 0) /\
    (nth i (suffix_min m l) 0 = m \/ exists j, i <= j < length l /\ nth i (suffix_min m l) 0 = nth j l 0).
Proof.
  induction l as [|x l IH]; intros i Hi; [simpl in Hi; lia|]. simpl suffix_min. destruct i as [|i].
  - simpl nth at 1 3 4 5. destruct l as [|y l].
    + simpl. split; [lia|]. split.
      * intros j Hj. replace j with 0 by lia. lia.
      * destruct (Nat.le_gt_cases x m); [right; exists 0|left]; simpl; lia.
    + assert (E : hd m (suffix_min m (y :: l)) = nth 0 (suffix_min m (y :: l)) 0) by reflexivity.
      rewrite E. destruct (IH 0) as (H1 & H2 & H3); [simpl; lia|]. split; [lia|]. split.
      * intros [|j] Hj; simpl nth; [lia|]. specialize (H2 j). simpl length in *. etransitivity; [apply Nat.le_min_r|]. apply H2. lia.
      * destruct (Nat.le_gt_cases x (nth 0 (suffix_min m (y :: l)) 0)) as [Hc|Hc].
        -- right. exists 0. simpl length. split; [lia|]. change (nth 0 (x :: y :: l) 0) with x. lia.
        -- destruct H3 as [H3|(j & Hj & H3)]; [left; lia|right]. exists (S j). simpl length in *. split; [lia|].
           change (nth (S j) (x :: y :: l) 0) with (nth j (y :: l) 0). lia.
  - simpl length in Hi. destruct (IH i) as (H1 & H2 & H3); [lia|]. simpl nth at 1 3 4 5. split; auto. split.
    + intros [|j] Hj; [lia|]. simpl. apply H2. simpl length in Hj. lia.
    + destruct H3 as [H3|(j & Hj & H3)]; [now left|right]. exists (S j). simpl length. split; [lia|]. exact H3.
Qed.

Lemma tiled_wf {W} (G : csr W) : tiled G -> 0 < gn G \/ gm G = 0 -> wf_graph G.
Proof.
  intros (H1 & H2 & H3 & H4 & H5) Hn0.
  assert (Hs : forall k, k <= gn G -> 0 < gn G -> list_sum (map (fun v => nth v (gdeg G) 0) (seq 0 k)) = if k =? gn G then gm G else nth k (goff G) 0).
  { induction k as [|k IH]; intros Hk Hn.
    - cbn [seq map]. destruct (Nat.eqb_spec 0 (gn G)); [lia|]. symmetry. apply H4. auto.
    - rewrite seq_S, map_app, list_sum_app. simpl list_sum. rewrite IH by lia. destruct (Nat.eqb_spec k (gn G)); [lia|].
      specialize (H5 k ltac:(lia)). replace (k + 1) with (S k) in H5 by lia.
      destruct (Nat.eqb_spec (S k) (gn G)), (Nat.eqb_spec k (gn G - 1)); lia. }
  assert (Hm : 0 < gn G -> gm G = list_sum (map (fun v => nth v (gdeg G) 0) (seq 0 (gn G)))).
  { intros Hn. rewrite Hs by lia. now rewrite Nat.eqb_refl. }
  split.
  - intros v Hv. rewrite H3, H5 by auto. destruct (Nat.eqb_spec v (gn G - 1)); [lia|].
    pose proof (Hs (v + 1) ltac:(lia) ltac:(lia)) as E. destruct (Nat.eqb_spec (v + 1) (gn G)); [lia|].
    rewrite <- E, Hm by lia. assert (Ha : gn G = v + 1 + (gn G - (v + 1))) by lia.
    rewrite Ha at 1. rewrite (seq_app (v + 1)), map_app, list_sum_app. lia.
  - destruct Hn0; [now apply Hm|]. destruct (Nat.eq_dec (gn G) 0) as [E|E]; [rewrite E; auto|apply Hm; lia].
Qed.

Section Trans.
  Variable W : Type.
  Variable es : list (edge W).
  Variable n : nat.
  Hypothesis Hs : StronglySorted src_le es.
  Hypothesis Hn : Forall (fun e => src e < n) es.
  Hypothesis Hne : 0 < length es.

  Lemma tstores_rank k x : In (k, x) (tstores es) -> k < n /\ x = rank es k.
  Proof.
    unfold tstores. intros [E|H].
    - injection E as <- <-. split; [now apply nth_src_lt|]. pose proof (rank_spec (nth_src es 0) Hs Hne). lia.
    - apply in_flat_map in H as (i & Hi & H). apply in_seq in Hi. destruct (Nat.eqb_spec (nth_src es i) (nth_src es (i - 1))) as [E|E]; [destruct H|].
      destruct H as [H|[]]. injection H as <- <-. split; [apply nth_src_lt; auto; lia|].
      pose proof (@nth_src_mono W es (i - 1) Hs) as Hm. replace (S (i - 1)) with i in Hm by lia. specialize (Hm ltac:(lia)).
      pose proof (@rank_spec W es (nth_src es i) i Hs ltac:(lia)). pose proof (@rank_spec W es (nth_src es i) (i - 1) Hs ltac:(lia)). lia.
  Qed.
  Lemma tstores_cover k : rank es k < rank es (S k) -> exists x, In (k, x) (tstores es).
  Proof.
    intros Hk. set (r := rank es k) in *. pose proof (rank_le es (S k)).
    assert (Hr : r < length es) by lia.
    assert (E : nth_src es r = k).
    { pose proof (rank_spec k Hs Hr). pose proof (rank_spec (S k) Hs Hr). fold r in H0. lia. }
    exists r. unfold tstores. destruct (Nat.eq_dec r 0) as [E0|E0]; [left; now rewrite E0 in *; rewrite E|right].
    apply in_flat_map. exists r. split; [apply in_seq; lia|].
    destruct (Nat.eqb_spec (nth_src es r) (nth_src es (r - 1))) as [E1|E1]; [|simpl; left; now rewrite E].
    exfalso. pose proof (@rank_spec W es k (r - 1) Hs ltac:(lia)) as H0. fold r in H0. lia.
  Qed.
  Lemma rank_mono a b : a <= b -> rank es a <= rank es b.
  Proof.
    intros H. unfold rank. clear -H. induction es as [|e l IH]; simpl; auto.
    destruct (Nat.ltb_spec (src e) a), (Nat.ltb_spec (src e) b); simpl; lia.
  Qed.

  Lemma toffsets int_max last order t : length es <= int_max -> length es <= last -> Permutation order (tstores es) ->
    run_stores order (repeat int_max n ++ [last]) = Some t ->
    length t = n + 1 /\ forall k, k <= n -> nth k (suffix_min (length es) t) 0 = rank es k.
  Proof.
    intros Hi Hla Hp Hrun.
    destruct (@run_stores_consistent nat (rank es) (n + 1) order (repeat int_max n ++ [last])) as (t' & E & Hl & HA).
    { rewrite app_length, repeat_length. reflexivity. }
    { intros k x Hk. apply (Permutation_in _ Hp), tstores_rank in Hk. split; [lia|tauto]. }
    rewrite Hrun in E. injection E as <-. split; auto. intros k Hk.
    assert (Hval : forall j, j <= n -> nth j t 0 = rank es j \/ (length es <= nth j t 0 /\ rank es j = rank es (S j))).
    { intros j Hj. destruct (HA j ltac:(lia)) as [[H1 _]|[H1 H2]].
      - left. now apply nth_error_nth.
      - right. split.
        + rewrite nth_error_app in H1 || idtac. apply nth_error_nth with (d := 0) in H1 || idtac.
          assert (E1 : nth_error t j = Some (nth j (repeat int_max n ++ [last]) 0)).
          { rewrite H1. apply nth_error_nth'. rewrite app_length, repeat_length. simpl. lia. }
          apply nth_error_nth with (d := 0) in E1. rewrite E1. destruct (Nat.eq_dec j n) as [->|Hne'].
          * rewrite app_nth2; rewrite repeat_length; auto. now rewrite Nat.sub_diag.
          * rewrite app_nth1 by (rewrite repeat_length; lia). rewrite (nth_indep _ 0 int_max) by (rewrite repeat_length; lia). now rewrite nth_repeat.
        + pose proof (@rank_mono j (S j) ltac:(lia)). destruct (Nat.eq_dec (rank es j) (rank es (S j))) as [E2|E2]; auto.
          destruct (@tstores_cover j ltac:(lia)) as (x & Hx). exfalso. apply (H2 x). eapply Permutation_in; [apply Permutation_sym|]; eauto. }
    destruct (@suffix_min_spec (length es) t k ltac:(lia)) as (S1 & S2 & S3).
    assert (Hup : nth k (suffix_min (length es) t) 0 <= rank es k).
    { (* walk up from k to the first cell that was stored, or to the end *)
      assert (Hw : forall d, k + d <= S n -> rank es (k + d) = rank es k \/ nth k (suffix_min (length es) t) 0 <= rank es k).
      { induction d as [|d IH]; intros Hd; [left; f_equal; lia|]. destruct IH as [E|E]; [lia| |now right].
        destruct (Hval (k + d) ltac:(lia)) as [H1|[H1 H2]].
        - right. rewrite <- E, <- H1. apply S2. lia.
        - left. replace (k + S d) with (S (k + d)) by lia. lia. }
      destruct (Hw (n - k) ltac:(lia)) as [E|E]; auto. replace (k + (n - k)) with n in E by lia. rewrite <- E.
      rewrite (rank_top Hn). lia. }
    assert (Hlow : rank es k <= nth k (suffix_min (length es) t) 0).
    { destruct S3 as [->|(j & Hj & ->)]; [apply rank_le|].
      destruct (Hval j ltac:(lia)) as [H1|[H1 H2]]; [rewrite H1; apply rank_mono; lia|].
      pose proof (rank_le es k). lia. }
    lia.
  Qed.
  Lemma trun int_max last order : Permutation order (tstores es) -> exists t, run_stores order (repeat int_max n ++ [last]) = Some t /\ length t = n + 1.
  Proof.
    intros Hp. destruct (@run_stores_consistent nat (rank es) (n + 1) order (repeat int_max n ++ [last])) as (t' & E & Hl & HA).
    { rewrite app_length, repeat_length. reflexivity. }
    { intros k x Hk. apply (Permutation_in _ Hp), tstores_rank in Hk. split; [lia|tauto]. }
    eauto.
  Qed.
End Trans.

Lemma edges_into_temp {W} (G : csr W) v : edges_into G v = get_neighbors (filter (fun e => src e =? v) (temp_of G)).
Proof.
  unfold edges_into, temp_of. induction (seq 0 (gn G)) as [|u l IH]; simpl; auto.
  rewrite filter_app. unfold get_neighbors in *. rewrite map_app. f_equal; [|exact IH].
  induction (neighbors G u) as [|[a w] r IHr]; simpl; auto. unfold src at 1. simpl. destruct (a =? v); simpl; rewrite <- IHr; reflexivity.
Qed.
Lemma temp_length {W} (G : csr W) : wf_graph G -> length (temp_of G) = gm G.
Proof.
  intros Hwf. pose proof Hwf as [_ Hm]. unfold temp_of. rewrite flat_map_length', Hm. f_equal. apply map_ext_in.
  intros i Hi. apply in_seq in Hi. rewrite map_length. apply wf_degree; auto. lia.
Qed.

Lemma in_graph_ok {W} int_max sort (G : csr W) last order :
  sorts_by_target sort -> wf_graph G -> targets_below G -> 0 < gm G -> gm G <= int_max -> gm G <= last ->
  Permutation order (tstores (sort (temp_of G))) ->
  exists Gin, in_graph int_max sort G last order = Some Gin /\ gn Gin = gn G /\ gm Gin = gm G /\ tiled Gin /\
    forall v, v < gn G -> Permutation (neighbors Gin v) (edges_into G v).
Proof.
  intros Hsort Hwf Htb Hm Hi Hl Hp. destruct (Hsort (temp_of G)) as [P S1]. set (es := sort (temp_of G)) in *.
  assert (Hlen : length es = gm G) by (rewrite <- (temp_length Hwf); symmetry; now apply Permutation_length).
  assert (Hn : Forall (fun e => src e < gn G) es).
  { apply Forall_forall. intros e He. apply (Permutation_in _ (Permutation_sym P)) in He. unfold temp_of in He.
    apply in_flat_map in He as (u & Hu & He). apply in_seq in Hu. apply in_map_iff in He as ([a w] & <- & He). eapply Htb; [|exact He]. lia. }
  unfold in_graph. fold es. rewrite Hlen. destruct (Nat.eqb_spec (gm G) 0); [lia|].
  destruct (@trun W es (gn G) S1 Hn ltac:(lia) int_max last order Hp) as (t & Et & Lt). rewrite Et.
  eexists. split; [reflexivity|]. split; auto. split; auto.
  destruct (@toffsets W es (gn G) S1 Hn ltac:(lia) int_max last order t) as [_ Ho]; auto; try lia.
  rewrite Hlen in Ho.
  assert (Hrt : rank es (gn G) = gm G) by (rewrite (rank_top Hn); auto).
  set (G' := csr_of_offsets (gn G) (gm G) (suffix_min (gm G) t) (get_neighbors es)).
  assert (Eo : forall v, v < gn G -> nth v (goff G') 0 = rank es v).
  { intros v Hv. unfold G', csr_of_offsets. cbn [goff]. rewrite <- Ho by lia.
    rewrite <- (firstn_skipn (gn G) (suffix_min (gm G) t)) at 2. rewrite app_nth1; auto. rewrite firstn_length, suffix_min_length. lia. }
  assert (Eg : forall v, v < gn G -> nth v (gdeg G') 0 = rank es (S v) - rank es v).
  { intros v Hv. unfold G', csr_of_offsets. cbn [gdeg]. rewrite nth_map_seq by auto. rewrite !Ho by lia. now rewrite Nat.add_1_r. }
  split.
  - unfold tiled. split; [|split; [|split; [|split]]].
    + unfold G', csr_of_offsets. cbn [goff gn]. rewrite firstn_length, suffix_min_length. lia.
    + unfold G', csr_of_offsets. cbn [gdeg gn]. now rewrite map_length, seq_length.
    + unfold G', csr_of_offsets, get_neighbors. cbn [gngh gm]. now rewrite map_length.
    + intros H. rewrite Eo by auto. apply rank_0.
    + change (gn G') with (gn G). change (gm G') with (gm G). intros v Hv. rewrite Eo, Eg by auto.
      pose proof (@rank_mono W es v (S v) ltac:(lia)). destruct (Nat.eqb_spec v (gn G - 1)) as [E|E].
      * replace (S v) with (gn G) in * by lia. lia.
      * rewrite Eo by lia. rewrite Nat.add_1_r. lia.
  - intros v Hv. rewrite edges_into_temp. unfold neighbors. rewrite Eo, Eg by auto.
    change (gngh G') with (get_neighbors es). unfold get_neighbors. rewrite skipn_map, firstn_map.
    rewrite (segment v S1). apply Permutation_map, perm_filter. now apply Permutation_sym.
Qed.

(* -- direct I/O ---------------------------------------------------------------------------- *)
Section OD.
  Variable pg c : nat.
  Hypothesis Hpg : 0 < pg.
  Hypothesis Hc : 0 < c.
  Let R := c * pg.
  Definition tail_chunk (f : nat) : nat := if f =? 0 then 0 else (f - 1) mod R + 1.
  Definition bytes_read (f : nat) : nat := if (f mod pg =? 0) && (pg <? tail_chunk f) then f - tail_chunk f + pg else f.

  Lemma R_pos : 0 < R.
  Proof. unfold R. nia. Qed.

  Definition finish (f sz : nat) : nat := if sz <? f then sz + Nat.min pg (f - sz) else sz.

  (* one residual chunk, rem = f - sz <= R *)
  Lemma last_chunk fuel f sz : sz <= f -> f - sz <= R ->
    exists sz', od_loop pg (S (S (S fuel))) f sz (adjust pg f sz R) = Some sz' /\
      finish f sz' = if ((f - sz) mod pg =? 0) && (pg <? f - sz) then sz + pg else f.
  Proof.
    intros Hsz Hrem. set (rem := f - sz) in *. pose proof R_pos as HR.
    destruct (Nat.eq_dec rem R) as [ER|NR].
    { unfold adjust. destruct (Nat.ltb_spec f (sz + R)); [lia|]. cbn [od_loop]. destruct (Nat.ltb_spec (sz + R) f); [lia|].
      exists sz. split; auto. unfold finish. destruct (Nat.ltb_spec sz f); [|lia]. fold rem.
      assert (E : rem mod pg = 0) by (rewrite ER; unfold R; apply Nat.mod_mul; lia). rewrite E. cbn [Nat.eqb andb].
      destruct (Nat.ltb_spec pg rem); lia. }
    assert (Ea : adjust pg f sz R = Nat.max (rem / pg * pg) pg).
    { unfold adjust. destruct (Nat.ltb_spec f (sz + R)); [reflexivity|lia]. }
    rewrite Ea. pose proof (Nat.div_mod rem pg ltac:(lia)) as Hdm. pose proof (Nat.mod_upper_bound rem pg ltac:(lia)) as Hmb.
    set (q := rem / pg) in *. set (r := rem mod pg) in *. rewrite (Nat.mul_comm pg q) in Hdm.
    destruct (Nat.eq_dec q 0) as [Eq|Nq].
    { rewrite Eq in *. simpl (0 * pg) in *. rewrite Nat.max_r by lia. cbn [od_loop]. destruct (Nat.ltb_spec (sz + pg) f); [lia|].
      exists sz. split; auto. unfold finish. fold rem. destruct (Nat.ltb_spec pg rem); [lia|]. rewrite andb_false_r.
      destruct (Nat.ltb_spec sz f); lia. }
    assert (pg <= q * pg) by nia. rewrite Nat.max_l by lia.
    destruct (Nat.eq_dec r 0) as [Er|Nr].
    { cbn [od_loop]. destruct (Nat.ltb_spec (sz + q * pg) f); [lia|]. exists sz. split; auto. unfold finish. fold rem. rewrite Er. cbn [Nat.eqb andb].
      destruct (Nat.ltb_spec sz f); [|lia]. destruct (Nat.ltb_spec pg rem); lia. }
    cbn [od_loop]. destruct (Nat.ltb_spec (sz + q * pg) f) as [Hlt|]; [|lia].
    replace (Nat.min (q * pg) (f - sz)) with (q * pg) by lia.
    assert (Ea2 : adjust pg f (sz + q * pg) (q * pg) = pg).
    { unfold adjust. destruct (Nat.ltb_spec f (sz + q * pg + q * pg)); [|lia]. replace (f - (sz + q * pg)) with r by lia.
      rewrite Nat.div_small by lia. simpl. lia. }
    rewrite Ea2. destruct (Nat.ltb_spec (sz + q * pg + pg) f); [lia|]. exists (sz + q * pg). split; auto.
    unfold finish. destruct (Nat.ltb_spec (sz + q * pg) f); [|lia]. destruct (Nat.eqb_spec r 0); [lia|]. simpl. lia.
  Qed.

  Lemma od_loop_ok k : forall fuel f sz, f - sz <= k -> sz < f -> k + 2 <= fuel ->
    exists sz', od_loop pg fuel f sz (adjust pg f sz R) = Some sz' /\
      finish f sz' = if ((f - sz) mod pg =? 0) && (pg <? (f - sz - 1) mod R + 1) then f - ((f - sz - 1) mod R + 1) + pg else f.
  Proof.
    pose proof R_pos as HR. induction k as [|k IH]; intros fuel f sz Hk Hsz Hf; [lia|].
    destruct (Nat.le_gt_cases (f - sz) R) as [Hle|Hgt].
    - destruct fuel as [|[|[|fuel]]]; try lia. destruct (@last_chunk fuel f sz ltac:(lia) Hle) as (sz' & E1 & E2).
      exists sz'. split; auto. rewrite E2. rewrite (Nat.mod_small (f - sz - 1) R) by lia. replace (f - sz - 1 + 1) with (f - sz) by lia.
      destruct (((f - sz) mod pg =? 0) && (pg <? f - sz)); lia.
    - destruct fuel as [|fuel]; [lia|].
      assert (Ea : adjust pg f sz R = R). { unfold adjust. destruct (Nat.ltb_spec f (sz + R)); lia. }
      rewrite Ea. cbn [od_loop]. destruct (Nat.ltb_spec (sz + R) f); [|lia]. replace (Nat.min R (f - sz)) with R by lia.
      destruct (IH fuel f (sz + R)) as (sz' & E1 & E2); [lia|lia|lia|]. exists sz'. split; auto. rewrite E2.
      assert (M1 : (f - sz) mod pg = (f - (sz + R)) mod pg).
      { replace (f - sz) with (f - (sz + R) + c * pg) by (unfold R; unfold R in *; lia). apply Nat.mod_add. lia. }
      assert (M2 : (f - sz - 1) mod R = (f - (sz + R) - 1) mod R).
      { replace (f - sz - 1) with (f - (sz + R) - 1 + 1 * R) by lia. apply Nat.mod_add. lia. }
      now rewrite M1, M2.
  Qed.
  Lemma read_ok {A} (file : list A) : read_o_direct pg R file =
    Some (map Some (firstn (bytes_read (length file)) file) ++ repeat None (length file - bytes_read (length file))).
  Proof.
    unfold read_o_direct. set (f := length file). destruct (Nat.eq_dec f 0) as [E|E].
    - rewrite E. assert (E1 : exists rs, adjust pg 0 0 R = rs) by eauto. destruct E1 as [rs ->]. cbn [od_loop].
      destruct (Nat.ltb_spec (0 + rs) 0); [lia|]. simpl. unfold bytes_read, tail_chunk. simpl. apply length_zero_iff_nil in E. subst file. now rewrite firstn_nil.
    - destruct (@od_loop_ok f (S (S f)) f 0) as (sz' & E1 & E2); [lia|lia|lia|]. rewrite E1. fold (finish f sz'). rewrite E2.
      rewrite Nat.sub_0_r. unfold bytes_read, tail_chunk. destruct (Nat.eqb_spec f 0); [lia|]. reflexivity.
  Qed.
End OD.
