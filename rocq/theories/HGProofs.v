(* Proofs about the histogram model. *)
From Coq Require Import Sorted Permutation.
From Verif Require Import Base ListUtil GBModel SFModel SFSpec SFProofs HTModel HTSpec HTProofs HTProps KCModel HGModel HGSpec.

(* -- heavy_hitters ----------------------------------------------------------------------- *)
Lemma heavy_loop_incl rest : forall prev c x, In x (heavy_loop prev c rest) -> In x rest.
Proof.
  induction rest as [|y rest IH]; intros prev c x; simpl; auto.
  destruct (y =? prev); [destruct (c =? 1)|]; simpl; intros H; try destruct H as [->|H]; eauto.
Qed.
Lemma sorted_ge rest : forall prev x, StronglySorted le (prev :: rest) -> In x (prev :: rest) -> prev <= x.
Proof. intros prev x H [->|Hx]; auto. apply StronglySorted_inv in H as [_ H]. rewrite Forall_forall in H. auto. Qed.
Lemma heavy_loop_gt rest : forall prev c x, StronglySorted le (prev :: rest) -> 2 <= c -> In x (heavy_loop prev c rest) -> prev < x.
Proof.
  induction rest as [|y rest IH]; intros prev c x HS Hc; simpl; [tauto|]. pose proof HS as HS'. apply StronglySorted_inv in HS as [HS HF].
  rewrite Forall_forall in HF. destruct (Nat.eqb_spec y prev) as [->|N].
  - destruct (Nat.eqb_spec c 1) as [?|_]; [lia|]. intros Hx. apply (IH prev (c + 1)); auto; lia.
  - intros Hx. specialize (HF y (or_introl eq_refl)). apply heavy_loop_incl in Hx. pose proof (sorted_ge HS (or_intror Hx)). lia.
Qed.
Lemma heavy_loop_NoDup rest : forall prev c, StronglySorted le (prev :: rest) -> NoDup (heavy_loop prev c rest).
Proof.
  induction rest as [|y rest IH]; intros prev c HS; simpl; [constructor|]. apply StronglySorted_inv in HS as [HS _].
  destruct (y =? prev); [destruct (Nat.eqb_spec c 1) as [->|N]|]; auto. constructor; auto.
  intros Hy. apply heavy_loop_gt in Hy; auto; lia.
Qed.
Lemma heavy_loop_length rest : forall prev c, 3 * length (heavy_loop prev c rest) <= length rest + match c with 0 => 1 | 1 => 2 | _ => 0 end.
Proof.
  induction rest as [|y rest IH]; intros prev c; simpl; [lia|].
  destruct (y =? prev); [destruct c as [|[|c]]|]; simpl.
  - specialize (IH y 1). simpl in IH. lia.
  - specialize (IH y 2). simpl in IH. lia.
  - specialize (IH y (S (S (c + 1)))). simpl in IH. lia.
  - specialize (IH y 0). simpl in IH. destruct c as [|[|c]]; lia.
Qed.
Lemma heavy_hitters_ok s : StronglySorted le s -> NoDup (heavy_hitters s) /\ incl (heavy_hitters s) s /\ 3 * length (heavy_hitters s) <= length s.
Proof.
  destruct s as [|x rest]; intros HS; simpl; [split; [apply NoDup_nil|split; [intros y []|lia]]|]. split; [now apply heavy_loop_NoDup|]. split.
  - intros y Hy. apply heavy_loop_incl in Hy. now right.
  - pose proof (heavy_loop_length rest x 0). simpl in *. lia.
Qed.

Lemma position_lt k l : forall t, position k l = Some t -> nth_error l t = Some k.
Proof.
  induction l as [|x l IH]; intros t; simpl; [discriminate|]. destruct (Nat.eqb_spec x k) as [->|N].
  - intros [= <-]. reflexivity.
  - destruct (position k l); [|discriminate]. intros [= <-]. now apply IH.
Qed.
Lemma position_nth k l : forall t, NoDup l -> nth_error l t = Some k -> position k l = Some t.
Proof.
  induction l as [|x l IH]; intros t Hn H; [destruct t; discriminate|]. apply NoDup_cons_iff in Hn as [Hx Hn]. simpl.
  destruct t as [|t]; simpl in H.
  - injection H as ->. now rewrite Nat.eqb_refl.
  - destruct (Nat.eqb_spec x k) as [->|N]; [exfalso; apply Hx; now apply nth_error_In in H|]. now rewrite (IH t).
Qed.

(* -- counting sort with the block size histogram.h recomputes ----------------------------- *)
Lemma count_sort_bs {A} key width K thr nb order (junk : A) cjunk inn : 0 < nb -> 0 < length inn -> K <= width ->
  (forall j, j < length inn -> key j < K) -> Permutation order (seq 0 nb) ->
  exists out counts m, count_sort key width K thr nb order junk cjunk inn = Some (out, counts, m) /\ 0 < m /\
    let bs := (length inn - 1) / m + 1 in length inn <= m * bs /\
    out = flat_map (fun i => map (fun j => nth j inn junk) (by_key key K (block (length inn) bs i))) (seq 0 m) /\
    (forall i k, i < m -> k < K -> nth (i * K + k) counts 0 = before key (block (length inn) bs i) k).
Proof.
  intros Hnb Hn0 HK Hk Hp. unfold count_sort. set (n := length inn) in *. destruct ((n <? thr) || (nb =? 1)).
  - rewrite seq_count_sort_ok; auto; try lia; try (rewrite repeat_length; lia); [|intros i Hi; apply Hk; lia].
    simpl option_map. do 3 eexists. split; [reflexivity|]. split; [lia|]. cbv zeta. rewrite Nat.div_1_r. replace (n - 1 + 1) with n by lia. split; [lia|].
    assert (Eb : block n n 0 = seq 0 (n - 0)) by (rewrite block_seq by lia; simpl; f_equal; lia).
    assert (Hl : length (sorted_seg key K inn 0 (n - 0)) = n) by (rewrite (@sorted_seg_length A key width K HK); [lia|unfold n; lia|intros i Hi; apply Hk; lia]).
    split.
    + simpl seq. cbn [flat_map]. rewrite app_nil_r, Eb. rewrite put_all by (rewrite repeat_length; auto). apply sorted_seg_map. unfold n. lia.
    + intros i k Hi Hk'. assert (i = 0) as -> by lia. rewrite Eb. simpl. unfold put. simpl.
      rewrite app_nth1 by (unfold bounds; rewrite map_length, seq_length; auto). unfold bounds. now rewrite nth_map_seq.
  - unfold n. rewrite count_sort_blocked by auto. fold n. simpl option_map. do 3 eexists. split; [reflexivity|]. split; [auto|]. cbv zeta. split; [|split].
    + exact (@div_up width K HK n nb Hnb).
    + apply flat_map_ext. intros i. rewrite block_seq by lia. apply sorted_seg_map. fold n. lia.
    + intros i k Hi Hk'. rewrite nth_flat_const; auto; [|intros q; unfold bounds; now rewrite map_length, seq_length].
      rewrite block_seq by lia. unfold bounds. now rewrite nth_map_seq.
Qed.

Lemma seg_seg {A} (a : list A) s l s' l' : s' + l' <= l -> seg (seg a s l) s' l' = seg a (s + s') l'.
Proof.
  intros H. unfold seg. rewrite skipn_firstn_comm, firstn_firstn, Nat.min_l by lia. f_equal. clear.
  revert a. induction s as [|s IH]; intros [|x a]; simpl; auto; destruct s'; auto.
Qed.
Lemma blocks_flat n bs : 0 < bs -> forall i, flat_map (block n bs) (seq 0 i) = seq 0 (Nat.min (i * bs) n).
Proof.
  intros Hb. induction i as [|i IH]; [reflexivity|]. rewrite flat_map_snoc, IH, block_seq by auto.
  assert (H : Nat.min (S i * bs) n = Nat.min (i * bs) n + (Nat.min (Nat.min (i * bs) n + bs) n - Nat.min (i * bs) n)) by lia. now rewrite H, seq_app.
Qed.
Lemma sum_before_le f i j : i <= j -> sum_before f i <= sum_before f j.
Proof. induction 1 as [|j H IH]; auto. rewrite sum_before_S. lia. Qed.

Lemma flat_map_ext_in {A B} (g h : A -> list B) l : (forall x, In x l -> g x = h x) -> flat_map g l = flat_map h l.
Proof. induction l as [|x l IH]; simpl; intros H; auto. rewrite H by auto. f_equal. apply IH. auto. Qed.

(* -- slices of a table --------------------------------------------------------------------- *)
Section Slices.
  Context {A : Type}.
  Variables (nb : nat) (P : nat -> list A) (R : list A).
  Let off i := sum_before (fun i => length (P i)) i.
  Let T := flat_map P (seq 0 nb) ++ R.
  Lemma slice_split i : i < nb -> T = flat_map P (seq 0 i) ++ P i ++ flat_map P (seq (S i) (nb - S i)) ++ R.
  Proof.
    intros Hi. unfold T. replace nb with (i + (1 + (nb - S i))) at 1 by lia. rewrite !seq_app. simpl. rewrite flat_map_app. simpl.
    rewrite <- !app_assoc, (Nat.add_1_r i). reflexivity.
  Qed.
  Lemma slice_get i : i < nb -> firstn (length (P i)) (skipn (off i) T) = P i.
  Proof.
    intros Hi. rewrite (@slice_split i Hi), skipn_app. assert (El : length (flat_map P (seq 0 i)) = off i) by apply flat_map_sum.
    rewrite El, Nat.sub_diag, skipn_all2 by lia. simpl. rewrite firstn_app, Nat.sub_diag, firstn_all. simpl. apply app_nil_r.
  Qed.
  Lemma slice_put i L : i < nb -> length L = length (P i) -> put (off i) L T = flat_map (fset P i L) (seq 0 nb) ++ R.
  Proof.
    intros Hi HL. assert (El : length (flat_map P (seq 0 i)) = off i) by apply flat_map_sum.
    rewrite (@slice_split i Hi). unfold put. rewrite firstn_app, El, Nat.sub_diag, firstn_all2 by lia. simpl. rewrite app_nil_r.
    rewrite skipn_app, El, skipn_all2 by lia. simpl. rewrite HL. replace (off i + length (P i) - off i) with (length (P i)) by lia.
    rewrite skipn_app, Nat.sub_diag, skipn_all. simpl.
    replace nb with (i + (1 + (nb - S i))) at 2 by lia. rewrite !seq_app, !flat_map_app. simpl. rewrite fset_same, app_nil_r, <- !app_assoc. f_equal; [|f_equal; f_equal].
    - apply flat_map_ext_in. intros j Hj. apply in_seq in Hj. rewrite fset_other by lia. reflexivity.
    - rewrite (Nat.add_1_r i). apply flat_map_ext_in. intros j Hj. apply in_seq in Hj. rewrite fset_other by lia. reflexivity.
  Qed.
End Slices.

Lemma new_table_app a b : new_table 0 a ++ new_table 0 b = new_table (V := nat) 0 (a + b).
Proof. symmetry. apply repeat_app. Qed.
Lemma new_tables (sz : nat -> nat) l : flat_map (fun i => new_table (V := nat) 0 (sz i)) l = new_table 0 (list_sum (map sz l)).
Proof. induction l as [|x l IH]; simpl; auto. now rewrite IH, new_table_app. Qed.
Lemma copy_out_ok L X : copy_out (length L) (cells L ++ X) = Some (L, new_table 0 (length L) ++ X).
Proof. induction L as [|[k v] L IH]; simpl; [reflexivity|]. now rewrite IH. Qed.
Lemma distinct_length l : distinct l <= length l.
Proof.
  unfold distinct. induction l as [|x l IH]; simpl; auto. destruct (in_dec Nat.eq_dec x l); simpl; lia.
Qed.
Lemma outputs_length {A B} (f : A -> option B) l : length (outputs f l) <= length l.
Proof. unfold outputs. induction l as [|x l IH]; simpl; auto. destruct (f x); simpl; lia. Qed.
Lemma outputs_app {A B} (f : A -> option B) a b : outputs f (a ++ b) = outputs f a ++ outputs f b.
Proof. apply flat_map_app. Qed.
Lemma log2_up_gt c : c + 1 <= 2 ^ Nat.log2_up (c + 1).
Proof. destruct c; [simpl; lia|]. apply Nat.log2_up_spec. lia. Qed.
Lemma counted_nodup l res : Permutation res (map (fun k => (k, count_occ Nat.eq_dec l k)) (nodup Nat.eq_dec l)) -> counted l res.
Proof.
  intros Hp. split.
  - apply (Permutation_NoDup (l := map fst (map (fun k => (k, count_occ Nat.eq_dec l k)) (nodup Nat.eq_dec l)))).
    + apply Permutation_map. now symmetry.
    + rewrite map_map. simpl. rewrite map_id. apply NoDup_nodup.
  - intros v c. split.
    + intros H. apply (Permutation_in _ Hp), in_map_iff in H as (k & [= <- <-] & Hk). apply nodup_In in Hk. split; auto.
      now apply (count_occ_In Nat.eq_dec).
    + intros [-> Hc]. apply (Permutation_in _ (Permutation_sym Hp)), in_map_iff. exists v. split; auto. apply nodup_In.
      now apply (count_occ_In Nat.eq_dec).
Qed.

(* -- tables up to the values of empty cells ------------------------------------------------ *)
Definition norm (t : table nat) : table nat := map (fun c => match fst c with None => (None, 0) | Some _ => c end) t.
Lemma norm_length t : length (norm t) = length t. Proof. apply map_length. Qed.
Lemma norm_nth t h : nth h (norm t) (None, 0) = match fst (nth h t (None, 0)) with None => (None, 0) | Some _ => nth h t (None, 0) end.
Proof. unfold norm. revert h. induction t as [|c t IH]; intros [|h]; simpl; auto. Qed.
Lemma norm_key t h : tkey 0 (norm t) h = tkey 0 t h.
Proof. unfold tkey. rewrite norm_nth. destruct (fst (nth h t (None, 0))) eqn:E; simpl; auto. Qed.
Lemma norm_val t h k : tkey 0 t h = Some k -> tval 0 (norm t) h = tval 0 t h.
Proof. unfold tkey, tval. rewrite norm_nth. intros ->. reflexivity. Qed.
Lemma norm_lset t h c : norm (lset t h c) = lset (norm t) h (match fst c with None => (None, 0) | Some _ => c end).
Proof. unfold norm. revert h. induction t as [|d t IH]; intros [|h]; simpl; auto. now rewrite IH. Qed.
Lemma norm_lset_None t h v : tkey 0 t h = None -> norm (lset t h (None, v)) = norm t.
Proof.
  unfold tkey. rewrite norm_lset. simpl. unfold norm. revert h. induction t as [|d t IH]; intros [|h] H; simpl in *; auto.
  - rewrite H. reflexivity.
  - now rewrite IH.
Qed.
Lemma norm_app a b : norm (a ++ b) = norm a ++ norm b. Proof. apply map_app. Qed.
Lemma norm_new m : norm (new_table 0 m) = new_table 0 m.
Proof. unfold norm, new_table. induction m as [|m IH]; simpl; auto. now f_equal. Qed.
Lemma norm_entries t : entries (norm t) = entries t.
Proof. unfold entries, norm. induction t as [|[[k|] v] t IH]; simpl; auto. now rewrite IH. Qed.
Lemma norm_all_empty t : norm t = new_table 0 (length t) <-> all_empty t.
Proof.
  unfold all_empty, norm, new_table. induction t as [|[[k|] v] t IH]; simpl.
  - split; [intros _ c []|auto].
  - split; [intros [=]|intros H; specialize (H _ (or_introl eq_refl)); discriminate].
  - split.
    + intros [= H] c [<-|Hc]; auto. now apply IH.
    + intros H. f_equal. apply IH. intros c Hc. apply H. now right.
Qed.
Lemma norm_empty t L : norm t = new_table 0 L -> all_empty t /\ length t = L.
Proof.
  intros H. assert (length t = L) as <- by (rewrite <- norm_length, H; apply repeat_length). split; auto. now apply norm_all_empty.
Qed.

Section Ins.
  Variable hash : nat -> nat.
  Variable empty : nat.
  Local Notation nonempty := (nonempty empty).
  Lemma insertAdd_key_norm k t : insertAdd_key hash k (norm t) = option_map norm (insertAdd_key hash k t).
  Proof.
    unfold insertAdd_key, seq_insert, firstIndex. rewrite norm_length. generalize (hash k mod length t). generalize (length t) at 1 2.
    intros fuel. induction fuel as [|fuel IH]; intros h; simpl; auto. rewrite norm_key.
    destruct (tkey 0 t h) as [k'|] eqn:Ek; [destruct (k' =? k)|]; simpl.
    - rewrite norm_lset, (norm_val _ _ Ek). reflexivity.
    - unfold incrementIndex. rewrite norm_length. apply IH.
    - rewrite norm_lset. reflexivity.
  Qed.
  Lemma insertAdd_key_norm_Some k t t1 : insertAdd_key hash k (norm t) = Some t1 -> exists t', insertAdd_key hash k t = Some t' /\ norm t' = t1.
  Proof. rewrite insertAdd_key_norm. destruct (insertAdd_key hash k t) as [t'|]; simpl; intros H; [|discriminate]. injection H as <-. eauto. Qed.
  Lemma mark_loop_ok t fuel : forall h, (exists j, j < fuel /\ tkey 0 t ((h + j) mod length t) = None) -> h < length t ->
    exists t', mark_loop fuel h t = Some t' /\ norm t' = norm t /\ length t' = length t.
  Proof.
    induction fuel as [|fuel IH]; intros h (j & Hj & Hk) Hh; [lia|]. simpl. destruct (tkey 0 t h) as [k|] eqn:E.
    - apply IH; [|unfold incrementIndex; apply Nat.mod_upper_bound; lia]. destruct j as [|j]; [rewrite Nat.add_0_r, Nat.mod_small in Hk by lia; congruence|].
      exists j. split; [lia|]. unfold incrementIndex. rewrite Nat.add_mod_idemp_l by lia. rewrite <- Hk. f_equal. f_equal. lia.
    - eexists. split; [reflexivity|]. split; [now apply norm_lset_None|apply length_lset].
  Qed.
  Lemma full_entries t : (forall h, h < length t -> tkey 0 t h <> None) -> length (entries t) = length t.
  Proof.
    unfold entries, tkey. induction t as [|[[k|] v] t IH]; simpl; intros H; auto.
    - f_equal. apply IH. intros h Hh. apply (H (S h)). lia.
    - exfalso. apply (H 0); [lia|reflexivity].
  Qed.
  Lemma mark_ok t k : 0 < length t -> length (entries t) < length t ->
    exists t', mark_loop (length t) (firstIndex hash t k) t = Some t' /\ norm t' = norm t /\ length t' = length t.
  Proof.
    intros H0 He. set (h := firstIndex hash t k). assert (Hh : h < length t) by (unfold h, firstIndex; apply Nat.mod_upper_bound; lia).
    apply mark_loop_ok; auto.
    assert (Hex : exists q, q < length t /\ tkey 0 t q = None).
    { destruct (existsb (fun q => match tkey 0 t q with None => true | _ => false end) (seq 0 (length t))) eqn:X.
      - apply existsb_exists in X as (q & Hq & X). apply in_seq in Hq. exists q. split; [lia|]. destruct (tkey 0 t q); [discriminate|auto].
      - exfalso. assert (length (entries t) = length t); [|lia]. apply full_entries. intros q Hq Hn.
        assert (existsb (fun q => match tkey 0 t q with None => true | _ => false end) (seq 0 (length t)) = true); [|congruence].
        apply existsb_exists. exists q. split; [apply in_seq; lia|]. now rewrite Hn. }
    destruct Hex as (q & Hq & Hn). destruct (Nat.le_gt_cases h q) as [Hle|Hgt].
    - exists (q - h). split; [lia|]. replace (h + (q - h)) with q by lia. now rewrite Nat.mod_small.
    - exists (q + length t - h). split; [lia|]. replace (h + (q + length t - h)) with (q + 1 * length t) by lia. rewrite Nat.mod_add, Nat.mod_small by lia. auto.
  Qed.
  Lemma insert_all_app {A} (ins : A -> table nat -> option (table nat)) l1 l2 t t1 : insert_all ins l1 t = Some t1 -> insert_all ins (l1 ++ l2) t = insert_all ins l2 t1.
  Proof. revert t. induction l1 as [|x l1 IH]; intros t; simpl; [now intros [= ->]|]. destruct (ins x t); [apply IH|discriminate]. Qed.
  Lemma insert_all_norm m l : forall pre t, length pre + length l < m ->
    insert_all (insertAdd_key hash) (filter nonempty pre) (new_table 0 m) = Some (norm t) ->
    exists t', insert_all (insertAdd hash empty) l t = Some t' /\
      insert_all (insertAdd_key hash) (filter nonempty (pre ++ l)) (new_table 0 m) = Some (norm t').
  Proof.
    induction l as [|k l IH]; intros pre t Hm Hp; [exists t; rewrite app_nil_r; auto|]. cbn [insert_all length] in *.
    assert (Hfl : forall l', length (filter nonempty l') <= length l') by (intros l'; induction l' as [|x l' IHl]; simpl; auto; destruct (nonempty x); simpl; lia).
    assert (Hstep : exists t1, insertAdd hash empty k t = Some t1 /\ insert_all (insertAdd_key hash) (filter nonempty (pre ++ [k])) (new_table 0 m) = Some (norm t1)).
    { unfold insertAdd. rewrite filter_app. cbn [filter]. unfold HGSpec.nonempty at 2. destruct (Nat.eqb_spec k empty) as [->|N]; cbn [negb].
      - destruct (@C30_counts hash m (filter nonempty pre) ltac:(lia)) as (t0 & E0 & Hperm); [pose proof (distinct_length (filter nonempty pre)); specialize (Hfl pre); lia|].
        assert (t0 = norm t) as -> by congruence.
        destruct (@C30_compact hash m (filter nonempty pre) (norm t) kv (fun x => Some x) (fun x => Some x) ltac:(lia)) as [_ Hc]; auto; [pose proof (distinct_length (filter nonempty pre)); specialize (Hfl pre); lia|].
        assert (Hlen : length t = m).
        { rewrite <- norm_length. clear - E0. revert E0. assert (Hlm : length (new_table 0 m : table nat) = m) by apply repeat_length. revert Hlm. generalize (new_table 0 m : table nat) as u.
          assert (Hstep : forall x (u u' : table nat), insertAdd_key hash x u = Some u' -> length u' = length u).
          { intros x u u'. unfold insertAdd_key, seq_insert. generalize (firstIndex hash u x). generalize (length u) at 1. intros fuel. induction fuel as [|fuel IHf]; intros h; simpl; [discriminate|].
            destruct (tkey 0 u h) as [k'|]; [destruct (k' =? x)|]; [intros [= <-]; apply length_lset|apply IHf|intros [= <-]; apply length_lset]. }
          induction (filter nonempty pre) as [|x l IH]; intros u Hu; simpl; [intros [= ->]; auto|]. destruct (insertAdd_key hash x u) eqn:Ex; [|discriminate]. apply IH. rewrite (Hstep _ _ _ Ex). auto. }
        destruct (@mark_ok t empty) as (t1 & E1 & Hn1 & _); [lia| |].
        { rewrite <- norm_entries. rewrite (Permutation_length Hperm), map_length. pose proof (distinct_length (filter nonempty pre)) as Hd. unfold distinct in Hd. specialize (Hfl pre). lia. }
        exists t1. split; auto. rewrite app_nil_r, Hn1. auto.
      - rewrite (insert_all_app _ _ _ _ Hp). cbn [insert_all].
        destruct (@C30_counts hash m (filter nonempty (pre ++ [k])) ltac:(lia)) as (t0 & E0 & _); [pose proof (distinct_length (filter nonempty (pre ++ [k]))); specialize (Hfl (pre ++ [k])); rewrite app_length in Hfl; simpl in Hfl; lia|].
        rewrite filter_app in E0. cbn [filter] in E0. unfold HGSpec.nonempty at 2 in E0. rewrite (proj2 (Nat.eqb_neq _ _) N) in E0. cbn [negb] in E0.
        rewrite (insert_all_app _ _ _ _ Hp) in E0. cbn [insert_all] in E0. destruct (insertAdd_key hash k (norm t)) as [t1|] eqn:E1; [|discriminate].
        destruct (insertAdd_key_norm_Some _ _ E1) as (t' & E2 & <-). exists t'. rewrite E2. auto. }
    destruct Hstep as (t1 & -> & Hp1). destruct (IH (pre ++ [k]) t1) as (t' & E' & Hp'); auto; [rewrite app_length; simpl; lia|].
    exists t'. rewrite <- app_assoc in Hp'. auto.
  Qed.
  Lemma insert_all_ok m l t : length l < m -> norm t = new_table 0 m ->
    exists t', insert_all (insertAdd hash empty) l t = Some t' /\ insert_all (insertAdd_key hash) (filter nonempty l) (new_table 0 m) = Some (norm t').
  Proof. intros Hm Ht. apply (@insert_all_norm m l [] t); simpl; auto. now rewrite Ht. Qed.
End Ins.
Lemma compactInto_norm f t : snd (compactInto 0 f t) = snd (compactInto 0 f (norm t)) /\ norm (fst (compactInto 0 f t)) = fst (compactInto (E := kv) 0 f (norm t)).
Proof. induction t as [|[[k|] v] t [IH1 IH2]]; simpl; auto; rewrite IH1; fold (norm t); split; auto; f_equal; auto. Qed.
Lemma cself_norm f t k i : norm (fst (cself_step 0 f (t, k) i)) = fst (cself_step 0 f (norm t, k) i) /\ snd (cself_step 0 f (t, k) i) = snd (cself_step 0 f (norm t, k) i).
Proof.
  unfold cself_step. rewrite norm_key. destruct (tkey 0 t i) as [key|] eqn:E; auto. rewrite (norm_val _ _ E). destruct (f (key, tval 0 t i)); simpl; rewrite !norm_lset; auto.
Qed.
Lemma compactSelf_norm f t : norm (fst (compactIntoSelf 0 f t)) = fst (compactIntoSelf 0 f (norm t)) /\ snd (compactIntoSelf 0 f t) = snd (compactIntoSelf 0 f (norm t)).
Proof.
  unfold compactIntoSelf. rewrite norm_length. generalize (seq 0 (length t)) as l. generalize 0 at 2 4 6 8 as k. intros k l. revert t k.
  induction l as [|i l IH]; intros t k; [auto|]. cbn [fold_left]. pose proof (cself_norm f t k i) as [H1 H2].
  destruct (cself_step 0 f (t, k) i) as [t1 k1], (cself_step 0 f (norm t, k) i) as [t2 k2]. simpl in *. subst. apply IH.
Qed.
Lemma copy_out_norm j : forall s l s', copy_out j (norm s) = Some (l, s') -> exists s1, copy_out j s = Some (l, s1) /\ norm s1 = s'.
Proof.
  induction j as [|j IH]; intros s l s'; [intros [= <- <-]; exists s; auto|]. destruct s as [|[[k|] v] s]; simpl; try discriminate.
  fold (norm s). destruct (copy_out j (norm s)) as [[l1 s1]|] eqn:E; simpl; [|discriminate]. intros [= <- <-].
  destruct (IH _ _ _ E) as (s2 & -> & <-). eexists. split; [reflexivity|]. reflexivity.
Qed.

Section Seq.
  Variable hash : nat -> nat.
  Variable f : kv -> option kv.
  Variable empty : nat.
  Lemma resize_new req t : all_empty t -> exists t', resize req t = t' /\ all_empty t' /\ length t <= length t' /\ req <= length t'.
  Proof.
    intros Ht. unfold resize. destruct (Nat.ltb_spec (length t) req) as [H|H].
    - eexists. split; [reflexivity|]. unfold new_table. rewrite repeat_length. split; [intros c Hc; apply repeat_spec in Hc; now subst|].
      assert (req <= 2 ^ Nat.log2_up req); [|lia]. destruct req as [|[|r]]; [simpl; lia|simpl; lia|]. pose proof (Nat.log2_up_spec (S (S r)) ltac:(lia)). lia.
    - exists t. repeat split; auto.
  Qed.
  Lemma filter_length_le {A} (g : A -> bool) l : length (filter g l) <= length l.
  Proof. induction l as [|x l IH]; simpl; auto. destruct (g x); simpl; lia. Qed.
  Lemma histogram_seq_ok keys t : all_empty t -> exists res t', histogram_seq hash f empty keys t = Some (outputs f res, t') /\ all_empty t' /\ length t <= length t' /\ counted (filter (nonempty empty) keys) res.
  Proof.
    intros Ht. unfold histogram_seq. set (rs := 2 ^ Nat.log2_up (length keys + 1)).
    assert (Hrs : length keys + 1 <= rs) by apply log2_up_gt.
    destruct (resize_new rs Ht) as (t1 & -> & Ht1 & HL & Hr).
    assert (Hf : norm (firstn rs t1) = new_table 0 rs).
    { replace rs with (length (firstn rs t1)) at 2 by (rewrite firstn_length; lia). apply norm_all_empty. intros c Hc. apply Ht1. rewrite <- (firstn_skipn rs t1). apply in_or_app. auto. }
    destruct (@insert_all_ok hash empty rs keys (firstn rs t1) ltac:(lia) Hf) as (t2 & -> & E2).
    pose proof (distinct_length (filter (nonempty empty) keys)) as Hd. pose proof (filter_length_le (nonempty empty) keys) as Hfl.
    destruct (@C30_counts hash rs (filter (nonempty empty) keys) ltac:(lia) ltac:(lia)) as (t3 & E3 & Hp). assert (t3 = norm t2) as -> by congruence.
    destruct (@C30_compact hash rs (filter (nonempty empty) keys) (norm t2) kv f f ltac:(lia) ltac:(lia) E2) as [Hc _].
    destruct (compactInto_norm f t2) as [C1 C2]. rewrite Hc in C1, C2. cbn [fst snd] in C1, C2.
    exists (entries (norm t2)). eexists. rewrite C1. split; [reflexivity|]. apply norm_empty in C2 as [C2 C3]. split; [|split].
    - intros c Hc'. apply in_app_or in Hc' as [Hc'|Hc']; auto. apply Ht1. rewrite <- (firstn_skipn rs t1). apply in_or_app. auto.
    - rewrite app_length, C3, skipn_length. lia.
    - now apply counted_nodup.
  Qed.
End Seq.

Section Buckets.
  Variables hash light : nat -> nat.
  Variables nb width : nat.
  Variable f : kv -> option kv.
  Variable empty : nat.
  Let ne := nonempty empty.
  Hypothesis Hlight : forall k, light k < nb.
  Variable hv : list nat.
  Hypothesis Hhv : NoDup hv.
  Hypothesis Hhl : length hv <= nb.
  Variable keys : list nat.
  Hypothesis Hhk : incl hv keys.
  Hypothesis Hn0 : 0 < length keys.
  Let K := total_buckets nb hv.
  Hypothesis HK : K <= width.
  Let gb := bucket_of light nb hv.
  Let n := length keys.
  Let key j := gb (nth j keys 0).

  Lemma gb_lt k : gb k < K.
  Proof.
    unfold gb, bucket_of, K, total_buckets. destruct (position k hv) as [t|] eqn:E.
    - apply position_lt in E. assert (t < length hv) by (apply nth_error_Some; congruence). destruct hv; simpl in *; lia.
    - specialize (Hlight k). destruct hv; lia.
  Qed.
  (* the keys of bucket i, in order *)
  Let B i := filter (fun k => gb k =? i) keys.

  Section Sorted.
    Variables (m junk : nat) (elms counts : list nat).
    Hypothesis Hm : 0 < m.
    Let bs := (n - 1) / m + 1.
    Hypothesis Hcov : n <= m * bs.
    Hypothesis Helms : elms = flat_map (fun j => map (fun q => nth q keys junk) (by_key key K (block n bs j))) (seq 0 m).
    Hypothesis Hcounts : forall j i, j < m -> i < K -> nth (j * K + i) counts 0 = before key (block n bs j) i.

    Let blk j := block n bs j.
    Let st j := Nat.min (j * bs) n.
    Lemma bs_pos : 0 < bs. Proof. unfold bs. lia. Qed.
    Lemma blk_eq j : blk j = seq (st j) (Nat.min (st j + bs) n - st j).
    Proof. unfold blk, st. apply block_seq, bs_pos. Qed.
    Lemma blk_in j q : In q (blk j) -> q < n.
    Proof. rewrite blk_eq. intros H. apply in_seq in H. lia. Qed.
    Lemma bk_len j : length (by_key key K (blk j)) = length (blk j).
    Proof. apply (@by_key_length key K). intros q _. apply gb_lt. Qed.
    Lemma st_sum j : sum_before (fun j => length (by_key key K (blk j))) j = st j.
    Proof.
      induction j as [|j IH]; [reflexivity|]. rewrite sum_before_S, IH, bk_len, blk_eq, seq_length. unfold st. lia.
    Qed.
    Lemma elms_length : length elms = n.
    Proof.
      rewrite Helms, flat_map_sum. transitivity (st m); [rewrite <- st_sum; apply sum_before_ext; intros; now rewrite map_length|]. unfold st. lia.
    Qed.
    Let fil i j := filter (fun q => key q =? i) (blk j).
    Lemma before_sum j i : before key (blk j) i = sum_before (fun k => length (filter (fun q => key q =? k) (blk j))) i.
    Proof. symmetry. apply (@sum_cntk key). Qed.
    Lemma part_eq i j : i < K -> j < m -> part K n bs counts i j = (before key (blk j) i + st j, length (fil i j)).
    Proof.
      intros Hi Hj. unfold part. fold (st j). rewrite Hcounts by auto. f_equal. fold (blk j).
      assert (HS : before key (blk j) (S i) = before key (blk j) i + length (fil i j)) by (rewrite !before_sum, sum_before_S; reflexivity).
      destruct (Nat.eqb_spec i (K - 1)) as [E|N].
      - assert (before key (blk j) (S i) = length (blk j)).
        { unfold before. rewrite filter_all; auto. intros q _. apply Nat.ltb_lt. pose proof (gb_lt (nth q keys 0)). fold (key q) in *. lia. }
        assert (Hb : length (blk j) = Nat.min (st j + bs) n - st j) by (rewrite blk_eq; apply seq_length). lia.
      - rewrite <- Nat.add_assoc, Nat.add_1_r, Hcounts by lia. fold (blk j). lia.
    Qed.
    Lemma before_le j i : i < K -> before key (blk j) i + length (fil i j) <= length (blk j).
    Proof.
      intros Hi. rewrite <- bk_len. unfold by_key. rewrite flat_map_sum. rewrite before_sum. fold (fil i j).
      transitivity (sum_before (fun k => length (filter (fun q => key q =? k) (blk j))) (S i)); [rewrite sum_before_S; reflexivity|].
      now apply sum_before_le.
    Qed.
    Lemma read_part_eq i j : i < K -> j < m -> read_part elms (part K n bs counts i j) = Some (map (fun q => nth q keys junk) (fil i j)).
    Proof.
      intros Hi Hj. rewrite part_eq by auto. unfold read_part. cbn [fst snd]. pose proof (before_le j Hi) as Hle.
      assert (Hlen : st j + length (blk j) <= n) by (rewrite blk_eq, seq_length; unfold st; lia).
      rewrite elms_length. destruct (Nat.leb_spec (before key (blk j) i + st j + length (fil i j)) n) as [_|H]; [|lia]. f_equal.
      rewrite (Nat.add_comm _ (st j)). change (seg elms (st j + before key (blk j) i) (length (fil i j)) = map (fun q => nth q keys junk) (fil i j)).
      rewrite <- (@seg_seg _ elms (st j) (length (blk j))) by lia.
      assert (E : seg elms (st j) (length (blk j)) = map (fun q => nth q keys junk) (by_key key K (blk j))).
      { rewrite Helms. etransitivity; [|exact (@segment_at 1 Nat.lt_0_1 _ (fun j => map (fun q => nth q keys junk) (by_key key K (block n bs j))) m j Hj)]. apply f_equal2.
        - rewrite <- st_sum. apply sum_before_ext. intros. now rewrite map_length.
        - rewrite map_length. symmetry. apply bk_len. }
      rewrite E. unfold seg. rewrite skipn_map, firstn_map. f_equal. rewrite before_sum. apply (@segment_at 1 Nat.lt_0_1 _ (fun k => filter (fun q => key q =? k) (blk j)) K i Hi).
    Qed.
    Lemma map_nth_B i : map (fun q => nth q keys junk) (filter (fun q => key q =? i) (seq 0 n)) = B i.
    Proof.
      unfold B, key, n. clear. assert (H : forall pre l, map (fun q => nth q (pre ++ l) junk) (filter (fun q => gb (nth q (pre ++ l) 0) =? i) (seq (length pre) (length l))) = filter (fun k => gb k =? i) l).
      { intros pre l. revert pre. induction l as [|x l IH]; intros pre; simpl; auto.
        rewrite app_nth2, Nat.sub_diag by lia. specialize (IH (pre ++ [x])). rewrite <- app_assoc, app_length, Nat.add_1_r in IH. simpl in IH.
        cbn [nth]. destruct (gb x =? i); simpl; rewrite IH; auto. rewrite app_nth2, Nat.sub_diag by lia. reflexivity. }
      apply (H []).
    Qed.
    Lemma read_parts_ok i js : i < K -> (forall j, In j js -> j < m) ->
      read_parts elms (map (part K n bs counts i) js) = Some (flat_map (fun j => map (fun q => nth q keys junk) (fil i j)) js).
    Proof.
      intros Hi. induction js as [|j js IH]; intros H; auto. cbn [map read_parts flat_map]. rewrite read_part_eq by (auto; apply H; now left).
      rewrite IH; auto. intros q Hq. apply H. now right.
    Qed.
    Lemma bucket_elms_ok i : i < K -> bucket_elms K n bs m elms counts i = Some (B i).
    Proof.
      intros Hi. unfold bucket_elms. rewrite read_parts_ok; auto; [|intros j Hj; apply in_seq in Hj; lia]. f_equal.
      rewrite <- map_nth_B. replace n with (Nat.min (m * bs) n) at 1 by lia. rewrite <- (@blocks_flat n bs bs_pos).
      generalize (seq 0 m). induction l as [|j l IH]; simpl; auto. rewrite filter_app, map_app. f_equal. exact IH.
    Qed.
    Lemma bkt_count_ok i : i < K -> bkt_count K n bs m counts i = length (B i).
    Proof.
      intros Hi. pose proof (bucket_elms_ok Hi) as E. unfold bucket_elms in E. rewrite read_parts_ok in E; auto; [|intros j Hj; apply in_seq in Hj; lia].
      injection E as <-. unfold bkt_count. rewrite flat_map_sum. unfold sum_before. f_equal. apply map_ext_in. intros j Hj. apply in_seq in Hj.
      rewrite part_eq by (auto; lia). now rewrite map_length.
    Qed.
    (* -- processing the buckets ----------------------------------------------------------- *)
    Let sz i := ht_size K n bs m counts i.
    Let E i := match insert_all (insertAdd_key hash) (filter ne (B i)) (new_table 0 (sz i)) with Some t => entries t | None => [] end.
    Let D i := cells (outputs f (E i)) ++ new_table 0 (sz i - length (outputs f (E i))).
    Lemma nb_K : nb <= K. Proof. unfold K, total_buckets. destruct hv; lia. Qed.
    Lemma sz_eq i : i < K -> sz i = if 0 <? length (B i) then 2 ^ Nat.log2_up (length (B i) + 1) else 0.
    Proof. intros Hi. unfold sz, ht_size. now rewrite bkt_count_ok. Qed.
    Lemma bucket_done i t0 : i < nb -> norm t0 = new_table 0 (sz i) ->
      (exists t, insert_all (insertAdd hash empty) (B i) t0 = Some t /\
         (0 < sz i -> norm (fst (compactIntoSelf 0 f t)) = D i /\ snd (compactIntoSelf 0 f t) = length (outputs f (E i)))) /\
      Permutation (E i) (map (fun k => (k, count_occ Nat.eq_dec (filter ne (B i)) k)) (nodup Nat.eq_dec (filter ne (B i)))) /\
      length (outputs f (E i)) <= sz i /\ (sz i = 0 -> E i = []).
    Proof.
      intros Hi. pose proof nb_K. rewrite (sz_eq (i := i)) by lia. unfold D, E. rewrite (sz_eq (i := i)) by lia.
      destruct (Nat.ltb_spec 0 (length (B i))) as [Hl|Hl]; intros Ht0.
      - pose proof (log2_up_gt (length (B i))) as Hg. set (s := 2 ^ Nat.log2_up (length (B i) + 1)) in *. pose proof (distinct_length (filter ne (B i))) as Hd.
        pose proof (filter_length_le ne (B i)) as Hfl.
        destruct (@C30_counts hash s (filter ne (B i)) ltac:(lia) ltac:(lia)) as (t & Et & Hp). rewrite Et.
        destruct (@C30_compact hash s (filter ne (B i)) t kv f f ltac:(lia) ltac:(lia) Et) as [_ Hc].
        destruct (@insert_all_ok hash empty s (B i) t0 ltac:(lia) Ht0) as (t' & E1 & E2). assert (norm t' = t) by (fold ne in E2; congruence). subst t.
        split; [|split; [|split]]; auto.
        + exists t'. split; auto. intros _. destruct (compactSelf_norm f t') as [C1 C2]. rewrite Hc in C1, C2. auto.
        + pose proof (outputs_length f (entries (norm t'))). apply Permutation_length in Hp. rewrite map_length in Hp. unfold distinct in Hd. lia.
        + intros. lia.
      - assert (B i = []) as -> by (destruct (B i); simpl in Hl; [auto|lia]). simpl. split; [|split; [|split]]; auto. exists t0. split; auto. lia.
    Qed.
    Lemma bucket_spec i : i < nb -> Permutation (E i) (map (fun k => (k, count_occ Nat.eq_dec (filter ne (B i)) k)) (nodup Nat.eq_dec (filter ne (B i)))) /\
      length (outputs f (E i)) <= sz i /\ (sz i = 0 -> E i = []).
    Proof. intros Hi. apply (@bucket_done i (new_table 0 (sz i)) Hi). apply norm_new. Qed.
    Lemma D_length i : i < nb -> length (D i) = sz i.
    Proof.
      intros Hi. destruct (bucket_spec Hi) as (_ & Hl & _). unfold D, cells, new_table. rewrite app_length, map_length, repeat_length. lia.
    Qed.

    Lemma off_eq (P : nat -> table nat) i : i <= nb -> (forall q, q < nb -> length (P q) = sz q) -> ht_off K n bs m counts i = sum_before (fun i => length (P i)) i.
    Proof. intros Hi H. unfold ht_off. apply sum_before_ext. intros j Hj. rewrite H by lia. reflexivity. Qed.

    Lemma light_steps R order : forall (P : nat -> table nat) ks, NoDup order -> (forall i, In i order -> i < nb) ->
      (forall i, i < nb -> length (P i) = sz i) -> (forall i, In i order -> norm (P i) = new_table 0 (sz i)) ->
      exists P' ks', steps (light_step hash f empty K n bs m elms counts) order (flat_map P (seq 0 nb) ++ R, ks) = Some (flat_map P' (seq 0 nb) ++ R, ks') /\
        (forall i, i < nb -> length (P' i) = sz i) /\ (forall i, In i order -> norm (P' i) = D i /\ ks' i = length (outputs f (E i))) /\ (forall i, ~ In i order -> P' i = P i /\ ks' i = ks i).
    Proof.
      induction order as [|i order IH]; intros P ks Hn Hi HP HN; [exists P, ks; repeat split; auto; contradiction|].
      apply NoDup_cons_iff in Hn as [Hni Hn]. assert (Hin : i < nb) by (apply Hi; now left). pose proof nb_K as HnK.
      assert (Estep : exists P1, light_step hash f empty K n bs m elms counts i (flat_map P (seq 0 nb) ++ R, ks) = Some (flat_map P1 (seq 0 nb) ++ R, fset ks i (length (outputs f (E i))))
                /\ norm (P1 i) = D i /\ forall q, q <> i -> P1 q = P q).
      { unfold light_step. fold (sz i). destruct (@bucket_done i (P i) Hin (HN i (or_introl eq_refl))) as ((t & Et & Ec) & Hp & Hl & H0).
        destruct (Nat.ltb_spec 0 (sz i)) as [Hs|Hs].
        - rewrite bucket_elms_ok by lia. rewrite (@off_eq P i) by (auto; lia). change (ht_size K n bs m counts i) with (sz i). rewrite <- (HP i Hin). rewrite slice_get by auto.
          rewrite Et. destruct (Ec Hs) as [Ec1 Ec2]. rewrite Ec2. rewrite slice_put by (auto; rewrite <- norm_length, Ec1, D_length, HP by auto; auto).
          exists (fset P i (fst (compactIntoSelf 0 f t))). split; auto. split; [now rewrite fset_same|]. intros q Hq. now apply fset_other.
        - exists P. rewrite H0 by lia. split; auto. split; auto. rewrite HN by now left. assert (sz i = 0) as E0 by lia. unfold D. rewrite H0, E0 by auto. reflexivity. }
      destruct Estep as (P1 & Es & Hd & Ho). cbn [steps]. rewrite Es.
      destruct (IH P1 (fset ks i (length (outputs f (E i))))) as (P' & ks' & E1 & E0 & E2 & E3); auto.
      { intros q Hq. apply Hi. now right. }
      { intros q Hq. destruct (Nat.eq_dec q i) as [->|N]; [rewrite <- norm_length, Hd; now apply D_length|rewrite Ho; auto]. }
      { intros q Hq. rewrite Ho; [apply HN; now right|congruence]. }
      exists P', ks'. split; auto. split; auto. split.
      - intros q [<-|Hq]; auto. destruct (E3 i Hni) as [-> ->]. split; auto. apply fset_same.
      - intros q Hq. assert (q <> i /\ ~ In q order) as [N1 N2] by (split; intros HH; apply Hq; [left|right]; auto).
        destruct (E3 q N2) as [-> ->]. split; auto. now apply fset_other.
    Qed.
    Lemma copy_steps R ks order : forall (P : nat -> table nat) res, NoDup order -> (forall i, In i order -> i < nb) ->
      (forall i, i < nb -> length (P i) = sz i) -> (forall i, In i order -> norm (P i) = D i /\ ks i = length (outputs f (E i)) /\ res i = []) ->
      exists P' res', steps (copy_step K n bs m counts ks) order (flat_map P (seq 0 nb) ++ R, res) = Some (flat_map P' (seq 0 nb) ++ R, res') /\
        (forall i, i < nb -> length (P' i) = sz i) /\ (forall i, In i order -> norm (P' i) = new_table 0 (sz i) /\ res' i = outputs f (E i)) /\ (forall i, ~ In i order -> P' i = P i /\ res' i = res i).
    Proof.
      induction order as [|i order IH]; intros P res Hn Hi HP HN; [exists P, res; repeat split; auto; contradiction|].
      apply NoDup_cons_iff in Hn as [Hni Hn]. assert (Hin : i < nb) by (apply Hi; now left). pose proof nb_K as HnK.
      destruct (HN i (or_introl eq_refl)) as (HPi & Hki & Hri).
      assert (Estep : exists P1 r1, copy_step K n bs m counts ks i (flat_map P (seq 0 nb) ++ R, res) = Some (flat_map P1 (seq 0 nb) ++ R, r1)
                /\ norm (P1 i) = new_table 0 (sz i) /\ r1 i = outputs f (E i) /\ forall q, q <> i -> P1 q = P q /\ r1 q = res q).
      { unfold copy_step. fold (sz i). destruct (bucket_spec Hin) as (Hp & Hl & H0).
        destruct (Nat.ltb_spec 0 (sz i)) as [Hs|Hs].
        - rewrite (@off_eq P i) by (auto; lia). change (ht_size K n bs m counts i) with (sz i). rewrite <- (HP i Hin). rewrite slice_get by auto. rewrite Hki.
          assert (Hco : copy_out (length (outputs f (E i))) (norm (P i)) = Some (outputs f (E i), new_table 0 (sz i))).
          { rewrite HPi. unfold D at 1. rewrite copy_out_ok, new_table_app. replace (length (outputs f (E i)) + _) with (sz i) by lia. reflexivity. }
          destruct (copy_out_norm _ _ Hco) as (s1 & -> & Hs1). cbn [option_map fst snd].
          rewrite slice_put by (auto; rewrite <- norm_length, Hs1, HP by auto; apply repeat_length).
          do 2 eexists. split; [reflexivity|]. rewrite !fset_same. split; [rewrite Hs1, ?HP by auto; reflexivity|]. split; auto. intros q Hq. rewrite !fset_other by auto. auto.
        - exists P, res. split; auto. assert (sz i = 0) as E0 by lia. rewrite HPi, Hri. unfold D. rewrite H0, E0 by auto. auto. }
      destruct Estep as (P1 & r1 & Es & Hd & Hr & Ho). cbn [steps]. rewrite Es.
      destruct (IH P1 r1) as (P' & r' & E1 & E0 & E2 & E3); auto.
      { intros q Hq. apply Hi. now right. }
      { intros q Hq. destruct (Nat.eq_dec q i) as [->|N]; [rewrite <- norm_length, Hd; apply repeat_length|]. destruct (Ho q N) as [-> _]. auto. }
      { intros q Hq. assert (q <> i) by congruence. destruct (Ho q H) as [-> ->]. apply HN. now right. }
      exists P', r'. split; auto. split; auto. split.
      - intros q [<-|Hq]; auto. destruct (E3 i Hni) as [-> ->]. auto.
      - intros q Hq. assert (q <> i /\ ~ In q order) as [N1 N2] by (split; intros HH; apply Hq; [left|right]; auto).
        destruct (E3 q N2) as [-> ->]. now apply Ho.
    Qed.

    Lemma gb_heavy k h : gb k = nb + h <-> nth_error hv h = Some k.
    Proof.
      unfold gb, bucket_of. split.
      - destruct (position k hv) as [t|] eqn:Ep; intros H; [|specialize (Hlight k); lia]. assert (t = h) by lia. subst t. now apply position_lt.
      - intros H. now rewrite (position_nth h Hhv H).
    Qed.
    Lemma B_heavy h k : nth_error hv h = Some k -> B (nb + h) = repeat k (count_occ Nat.eq_dec keys k).
    Proof.
      intros Hk. unfold B. assert (H : forall x, (gb x =? nb + h) = if Nat.eq_dec x k then true else false).
      { intros x. destruct (Nat.eq_dec x k) as [->|N]; [apply Nat.eqb_eq; now apply gb_heavy|].
        apply Nat.eqb_neq. intros HH. apply gb_heavy in HH. congruence. }
      rewrite (filter_ext _ _ H). clear. induction keys as [|x l IH]; simpl; auto. destruct (Nat.eq_dec x k) as [->|]; simpl; auto. now rewrite IH.
    Qed.
    Let HE := map (fun k => (k, count_occ Nat.eq_dec keys k)) hv.
    Lemma heavy_steps : all_some (map (fun h => heavy_step f K n bs m elms counts (nb + h)) (seq 0 (length hv))) = Some (map f HE).
    Proof.
      unfold HE. rewrite map_map.
      assert (H : forall h k, nth_error hv h = Some k -> heavy_step f K n bs m elms counts (nb + h) = Some (f (k, count_occ Nat.eq_dec keys k))).
      { intros h k Hk. unfold heavy_step. rewrite bucket_elms_ok by (rewrite <- (proj2 (gb_heavy k h) Hk); apply gb_lt). rewrite (B_heavy h Hk).
        assert (Hc : 0 < count_occ Nat.eq_dec keys k) by (apply count_occ_In, Hhk; now apply nth_error_In in Hk).
        destruct (count_occ Nat.eq_dec keys k) as [|c]; [lia|]. cbn [repeat length]. now rewrite repeat_length. }
      assert (G : forall l pre, hv = pre ++ l -> all_some (map (fun h => heavy_step f K n bs m elms counts (nb + h)) (seq (length pre) (length l))) = Some (map (fun k => f (k, count_occ Nat.eq_dec keys k)) l)).
      { induction l as [|k l IH]; intros pre Ep; simpl; auto. rewrite (H _ k) by (rewrite Ep, nth_error_app2, Nat.sub_diag by lia; reflexivity).
        specialize (IH (pre ++ [k])). rewrite app_length, Nat.add_1_r in IH. simpl in IH. rewrite IH; auto. now rewrite <- app_assoc. }
      apply (G hv []). reflexivity.
    Qed.

    (* the keys apply_f is called for: all but the empty key, unless that is heavy *)
    Let KF := filter (fun k => ne k || (nb <=? gb k)) keys.
    Lemma count_filter (g : nat -> bool) v (l : list nat) : count_occ Nat.eq_dec (filter g l) v = if g v then count_occ Nat.eq_dec l v else 0.
    Proof.
      induction l as [|x l IH]; simpl; [now destruct (g v)|]. destruct (g x) eqn:Ex; simpl; destruct (Nat.eq_dec x v) as [->|N]; rewrite ?IH, ?Ex; auto.
    Qed.
    Lemma all_counted : counted KF (flat_map E (seq 0 nb) ++ HE).
    Proof.
      assert (HE1 : forall i, i < nb -> counted (filter ne (B i)) (E i)) by (intros i Hi; apply counted_nodup; now apply bucket_spec).
      assert (Hfst : forall i v c, i < nb -> In (v, c) (E i) -> gb v = i).
      { intros i v c Hi Hv. apply (HE1 i Hi) in Hv as [-> Hc]. apply count_occ_In in Hc. apply filter_In in Hc as [Hc _]. apply filter_In in Hc as [Hk Hg]. apply Nat.eqb_eq in Hg. auto. }
      assert (Hcnt : forall i v, i < nb -> gb v = i -> count_occ Nat.eq_dec (filter ne (B i)) v = count_occ Nat.eq_dec KF v).
      { intros i v Hi Hg. unfold B, KF. rewrite !count_filter. rewrite Hg, Nat.eqb_refl. destruct (Nat.leb_spec nb i); [lia|]. rewrite orb_false_r. reflexivity. }
      assert (Hhc : forall k, In k hv -> count_occ Nat.eq_dec KF k = count_occ Nat.eq_dec keys k /\ nb <= gb k).
      { intros k Hk. apply In_nth_error in Hk as (h & Hh). apply gb_heavy in Hh. unfold KF. rewrite count_filter, Hh. destruct (Nat.leb_spec nb (nb + h)); [|lia]. rewrite orb_true_r. split; auto. }
      split.
      - rewrite map_app. apply NoDup_app_iff. split; [|split].
        + assert (G : forall j, j <= nb -> NoDup (map fst (flat_map E (seq 0 j)))).
          { induction j as [|j IH]; intros Hj; [constructor|]. rewrite flat_map_snoc, map_app. apply NoDup_app_iff. split; [apply IH; lia|]. split; [apply HE1; lia|].
            intros v Hv1 Hv2. apply in_map_iff in Hv1 as ([v1 c1] & <- & H1). apply in_map_iff in Hv2 as ([v2 c2] & Ev & H2). simpl in Ev. subst v2.
            apply in_flat_map in H1 as (q & Hq & H1). apply in_seq in Hq. apply Hfst in H1; [|lia]. apply Hfst in H2; [|lia]. simpl in *. lia. }
          apply (G nb). lia.
        + unfold HE. rewrite map_map. simpl. rewrite map_id. exact Hhv.
        + intros v Hv1 Hv2. apply in_map_iff in Hv1 as ([v1 c1] & <- & H1). apply in_flat_map in H1 as (q & Hq & H1). apply in_seq in Hq. apply Hfst in H1; [|lia].
          unfold HE in Hv2. rewrite map_map in Hv2. simpl in Hv2. rewrite map_id in Hv2. apply Hhc in Hv2 as [_ Hv2]. simpl in *. lia.
      - intros v c. split.
        + intros Hv. apply in_app_or in Hv as [Hv|Hv].
          * apply in_flat_map in Hv as (q & Hq & Hv). apply in_seq in Hq. pose proof (@Hfst q v c ltac:(lia) Hv) as Hg. apply HE1 in Hv as [-> Hc]; [|lia].
            rewrite (Hcnt q v) in * by (auto; lia). auto.
          * apply in_map_iff in Hv as (k & [= <- <-] & Hk). destruct (Hhc k Hk) as [-> _]. split; auto. apply count_occ_In. auto.
        + intros [-> Hc]. apply in_or_app. pose proof (gb_lt v) as Hg. destruct (Nat.lt_ge_cases (gb v) nb) as [Hl|Hl].
          * left. apply in_flat_map. exists (gb v). split; [apply in_seq; lia|]. apply (HE1 _ Hl). rewrite (Hcnt (gb v) v) by auto. auto.
          * right. assert (nth_error hv (gb v - nb) = Some v) as Hh by (apply gb_heavy; lia). apply nth_error_In in Hh. apply in_map_iff. exists v. split; auto. destruct (Hhc v Hh) as [-> _]. auto.
    Qed.
    Lemma KF_eq : KF = filter ne keys \/ (In empty hv /\ KF = keys).
    Proof.
      unfold KF. destruct (in_dec Nat.eq_dec empty hv) as [Hin|Hn].
      - right. split; auto. apply filter_all. intros k Hk. unfold ne, nonempty. destruct (Nat.eqb_spec k empty) as [->|]; auto. simpl. apply In_nth_error in Hin as (h & Hh). apply gb_heavy in Hh. apply Nat.leb_le. lia.
      - left. apply filter_ext. intros k. unfold ne, nonempty. destruct (Nat.eqb_spec k empty) as [->|]; auto. simpl. apply Nat.leb_gt. unfold gb, bucket_of.
        destruct (position empty hv) as [t|] eqn:Ep; auto. apply position_lt, nth_error_In in Ep. contradiction.
    Qed.

    Lemma skip_skip {X} a b (l : list X) : skipn a (skipn b l) = skipn (b + a) l.
    Proof. clear. revert l. induction b as [|b IH]; intros l; simpl; auto. destruct l; [now rewrite !skipn_nil|apply IH]. Qed.
    Lemma slices_split {X} (s : nat -> nat) (l : list X) j : sum_before s j <= length l ->
      l = flat_map (fun i => firstn (s i) (skipn (sum_before s i) l)) (seq 0 j) ++ skipn (sum_before s j) l /\ forall i, i < j -> length (firstn (s i) (skipn (sum_before s i) l)) = s i.
    Proof.
      clear. induction j as [|j IH]; intros H; [split; [reflexivity|lia]|]. rewrite sum_before_S in H. destruct IH as [E1 E2]; [lia|]. split.
      - rewrite flat_map_snoc, <- app_assoc, sum_before_S. rewrite E1 at 1. f_equal. rewrite <- (firstn_skipn (s j) (skipn (sum_before s j) l)) at 1. f_equal. now rewrite skip_skip.
      - intros i Hi. rewrite firstn_length, skipn_length. destruct (Nat.eq_dec i j) as [->|N]; [lia|]. specialize (E2 i ltac:(lia)). rewrite firstn_length, skipn_length in E2. lia.
    Qed.
    Lemma process_ok o3 o5 t : all_empty t -> Permutation o3 (seq 0 nb) -> Permutation o5 (seq 0 nb) ->
      exists res t', process hash nb f empty K n bs m elms counts (length hv) o3 o5 t = Some (outputs f res, t') /\ all_empty t' /\ length t <= length t' /\
        (counted (filter ne keys) res \/ In empty hv /\ counted keys res).
    Proof.
      intros Ht H3 H5. unfold process. cbv zeta. destruct (@resize_new (ht_off K n bs m counts nb) t Ht) as (t1 & -> & Ht1 & HL & Hr).
      destruct (@slices_split _ sz t1 nb Hr) as [ET Hsz]. fold (ht_off K n bs m counts nb) in ET. change (sum_before sz nb) with (ht_off K n bs m counts nb) in ET.
      set (P0 := fun i => firstn (sz i) (skipn (sum_before sz i) t1)) in *. set (R := skipn (ht_off K n bs m counts nb) t1) in *.
      assert (HR : all_empty R) by (intros c Hc; apply Ht1; rewrite ET; apply in_or_app; auto).
      rewrite ET.
      destruct (@light_steps R o3 P0 (fun _ => 0)) as (P1 & ks & E1 & HS1 & HP1 & _).
      { apply (Permutation_NoDup (Permutation_sym H3)), seq_NoDup. } { intros i Hi. apply (Permutation_in _ H3), in_seq in Hi. lia. }
      { exact Hsz. }
      { intros i Hi. apply (Permutation_in _ H3), in_seq in Hi. rewrite <- (Hsz i) by lia. apply norm_all_empty. intros c Hc. apply Ht1. rewrite ET. apply in_or_app. left. apply in_flat_map. exists i. split; auto. apply in_seq. lia. }
      unfold table in E1 |- *. rewrite E1, heavy_steps.
      assert (A3 : forall i, i < nb -> In i o3) by (intros i Hi; apply (Permutation_in _ (Permutation_sym H3)), in_seq; lia).
      assert (A5 : forall i, i < nb -> In i o5) by (intros i Hi; apply (Permutation_in _ (Permutation_sym H5)), in_seq; lia).
      assert (B5 : forall i, In i o5 -> i < nb) by (intros i Hi; apply (Permutation_in _ H5), in_seq in Hi; lia).
      destruct (@copy_steps R ks o5 P1 (fun _ => [])) as (P2 & res & E2 & HS2 & HP2 & _); auto.
      { apply (Permutation_NoDup (Permutation_sym H5)), seq_NoDup. }
      { intros i Hi. destruct (HP1 i (A3 i (B5 i Hi))) as [-> ->]. auto. }
      unfold table in E2 |- *. rewrite E2. exists (flat_map E (seq 0 nb) ++ HE). eexists. split; [|split; [|split]].
      - f_equal. f_equal. rewrite outputs_app. f_equal.
        + transitivity (flat_map (fun i => outputs f (E i)) (seq 0 nb)).
          * apply flat_map_ext_in. intros i Hi. apply in_seq in Hi. apply HP2, A5. lia.
          * generalize (seq 0 nb). induction l as [|x l IH]; simpl; auto. now rewrite outputs_app, IH.
        + unfold outputs. clear. induction HE as [|x l IH]; simpl; auto. now rewrite IH.
      - intros c Hc. apply in_app_or in Hc as [Hc|Hc]; auto. apply in_flat_map in Hc as (i & Hi & Hc). apply in_seq in Hi.
        destruct (HP2 i (A5 i ltac:(lia))) as [Hn _]. apply norm_empty in Hn as [Hn _]. auto.
      - rewrite ET, !app_length, !flat_map_sum in HL. rewrite app_length, flat_map_sum. erewrite sum_before_ext; [exact HL|]. intros i Hi. simpl. rewrite HS2 by auto. unfold P0. symmetry. now apply Hsz.
      - pose proof all_counted as HC. destruct KF_eq as [Ek|[Hin Ek]]; rewrite Ek in HC; auto.
    Qed.
  End Sorted.

  Lemma histogram_buckets_ok csthr csnb csorder junk cjunk o3 o5 t : all_empty t -> 0 < csnb -> Permutation csorder (seq 0 csnb) ->
    Permutation o3 (seq 0 nb) -> Permutation o5 (seq 0 nb) ->
    exists res t', histogram_buckets hash light nb width f empty csthr csnb csorder junk cjunk o3 o5 hv keys t = Some (outputs f res, t') /\
      all_empty t' /\ length t <= length t' /\ (counted (filter ne keys) res \/ In empty hv /\ counted keys res).
  Proof.
    intros Ht Hc Hp H3 H5. unfold histogram_buckets. fold K. fold gb.
    destruct (@count_sort_bs nat key width K csthr csnb csorder junk cjunk keys Hc Hn0 HK) as (elms & counts & m & E & Hm & Hcov & He & Hct); auto.
    { intros j _. apply gb_lt. }
    unfold key in E. rewrite E. eapply process_ok; eauto.
  Qed.
End Buckets.
