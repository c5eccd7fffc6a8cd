(* C05, C06, C10: the block-parallel byte codec (bytepd), for any block size B >= 1
   (the code uses 1000). *)
From Verif Require Import Base CodecModel CodecSpec CodecProofs CodecList PDModel PDSpec PDProofs.
From Coq Require Import NArith ZArith Lia Sorted.
Local Open Scope N_scope.

Lemma pd_compress_ok : forall B w m a src l, (1 <= B)%nat -> w <> WFloat -> src < two32 ->
  adj_ok w l -> near src l -> 14 * N.of_nat (length l) < two32 ->
  exists m1 e, pd_compress B w m a 0 src l = Some (m1, e) /\
    same_out m m1 a e /\ (a <= e)%nat /\
    pd_compute_size B w src l = Some (N.of_nat (e - a)) /\
    forall m2, same_in m1 m2 a e -> l <> [] -> pd_holds B w src m2 a l.
Proof.
  intros B w m a src l HB Hw Hs Hl Hn Hsz. apply ok_adj in Hl.
  destruct (@pd_compress_spec B HB w Hw src Hs m a l Hl Hn Hsz) as (m1 & e & E & Hae & He & Ho & Hi).
  exists m1, e. split; [exact E|]. split; [exact Ho|]. split; [exact Hae|]. split.
  - rewrite pd_compute_size_run by auto. f_equal. f_equal. lia.
  - intros m2 H2 Hne. apply Hi; auto.
Qed.

(* C05: the size is computed exactly, and decoding makes, block by block, exactly the
   calls for the elements of the block up to the first false answer.  If the first
   block is not traversed to its end the other blocks are not visited. *)
Theorem C05_pd_decode : forall B w m a src l, (1 <= B)%nat -> w <> WFloat -> src < two32 ->
  adj_ok w l -> near src l -> 14 * N.of_nat (length l) < two32 ->
  exists m1 e, pd_compress B w m a 0 src l = Some (m1, e) /\
    same_out m m1 a e /\
    pd_compute_size B w src l = Some (N.of_nat (e - a)) /\
    forall m2, same_in m1 m2 a e -> forall t,
      pd_decode B w t m2 a src (length l)
      = Some (if all_true t 0 (block B 0 l)
              then map (fun i => upto t (i * B) (block B i l)) (seq 0 (ceil_div (length l) B))
              else [upto t 0 (block B 0 l)]).
Proof.
  intros B w m a src l HB Hw Hs Hl Hn Hsz.
  destruct (@pd_compress_ok B w m a src l) as (m1 & e & E & Ho & Hae & Hz & Hi); auto.
  exists m1, e. repeat split; auto. intros m2 H2 t. apply ok_adj in Hl. apply pd_decode_run; auto.
Qed.

(* with a callback that always continues, every pair is visited once, at its position;
   and the blocks taken in order give back the list *)
Theorem C05_pd_roundtrip : forall B w m a src l, (1 <= B)%nat -> w <> WFloat -> src < two32 ->
  adj_ok w l -> near src l -> 14 * N.of_nat (length l) < two32 ->
  exists m1 e, pd_compress B w m a 0 src l = Some (m1, e) /\
    forall m2, same_in m1 m2 a e ->
      (exists css, pd_decode B w (fun _ _ _ => true) m2 a src (length l) = Some css /\
         concat css = map (fun p => (fst (fst p), snd (fst p), snd p)) (combine l (seq 0 (length l)))) /\
      (forall i, (i < ceil_div (length l) B)%nat -> forall t,
         pd_decode_block B w t m2 a src (length l) i = Some (upto t (i * B) (block B i l))) /\
      concat (map (fun i => block B i l) (seq 0 (ceil_div (length l) B))) = l.
Proof.
  intros B w m a src l HB Hw Hs Hl Hn Hsz.
  destruct (@pd_compress_ok B w m a src l) as (m1 & e & E & Ho & Hae & Hz & Hi); auto.
  exists m1, e. split; auto. intros m2 H2. apply ok_adj in Hl.
  assert (Hcc : concat (map (fun i => block B i l) (seq 0 (ceil_div (length l) B))) = l).
  { destruct (length l) as [|n] eqn:El.
    - apply length_zero_iff_nil in El. subst. unfold ceil_div. rewrite Nat.div_small by (simpl; lia). reflexivity.
    - rewrite <- nblocks_ceil by lia. rewrite <- El. now apply concat_blocks. }
  split; [|split; auto; intros i Hi' t; apply pd_decode_block_run; auto].
  rewrite pd_decode_run by auto. rewrite all_true_true. eexists. split; [reflexivity|].
  rewrite <- upto_true.
  assert (G : forall k l0, concat (map (fun i => upto (fun _ _ _ => true) (i * B) (block B i l0)) (seq 0 k))
      = upto (fun _ _ _ => true) 0 (concat (map (fun i => block B i l0) (seq 0 k)))).
  { clear -HB. intros k l0. rewrite (concat_blocks_k HB).
    assert (Hup : forall (l1 l2 : list edge) id, upto (fun _ _ _ => true) id (l1 ++ l2)
       = upto (fun _ _ _ => true) id l1 ++ upto (fun _ _ _ => true) (id + length l1) l2).
    { induction l1 as [|[v x] l1 IH]; intros l2 id; simpl; [now rewrite Nat.add_0_r|].
      rewrite IH. do 3 f_equal. lia. }
    induction k as [|k IH]; [reflexivity|].
    rewrite seq_S, map_app, concat_app, IH. cbn [map concat Nat.add]. rewrite app_nil_r.
    destruct (Nat.le_gt_cases (length l0) (k * B)) as [Hle|Hgt].
    - unfold block. rewrite (skipn_all2 l0) by auto. rewrite firstn_nil. simpl upto at 2.
      rewrite app_nil_r. rewrite !firstn_all2; auto. cbn [Nat.mul]. lia.
    - assert (Hf : firstn (S k * B) l0 = firstn (k * B) l0 ++ block B k l0).
      { rewrite <- !(concat_blocks_k HB), seq_S, map_app, concat_app. simpl. now rewrite app_nil_r. }
      rewrite Hf, Hup. f_equal. f_equal. rewrite firstn_length. lia. }
  rewrite G, Hcc. reflexivity.
Qed.

Theorem C05_pd_map_reduce : forall B w E (f : N -> Z -> E) (reduce : E -> E -> E) (identity : E) m a src l,
  (forall x y z, reduce x (reduce y z) = reduce (reduce x y) z) ->
  (forall x, reduce identity x = x) -> (forall x, reduce x identity = x) ->
  (1 <= B)%nat -> w <> WFloat -> src < two32 -> adj_ok w l -> near src l -> 14 * N.of_nat (length l) < two32 ->
  exists m1 e, pd_compress B w m a 0 src l = Some (m1, e) /\
    forall m2, same_in m1 m2 a e ->
      pd_map_reduce B w f reduce identity m2 a src (length l)
      = Some (fold_left reduce (map (fun e => f (fst e) (snd e)) l) identity).
Proof.
  intros B w E f red id m a src l Ha Hl Hr HB Hw Hs Hok Hn Hsz.
  destruct (@pd_compress_ok B w m a src l) as (m1 & e & Ec & Ho & Hae & Hz & Hi); auto.
  exists m1, e. split; auto. intros m2 H2. apply ok_adj in Hok. apply pd_map_reduce_run; auto.
Qed.

(* filter and the iterator *)
Theorem C05_pd_filter_iter : forall B w m a src l (pred : N -> Z -> bool),
  (1 <= B)%nat -> w <> WFloat -> src < two32 -> adj_ok w l -> l <> [] -> near src l -> 14 * N.of_nat (length l) < two32 ->
  exists m1 e, pd_compress B w m a 0 src l = Some (m1, e) /\
    forall m2, same_in m1 m2 a e ->
      pd_filter B w pred m2 a src (length l) = Some (filter (fun e => pred (fst e) (snd e)) l) /\
      pd_iter B w m2 a src (length l) = Some l.
Proof.
  intros B w m a src l pred HB Hw Hs Hok Hne Hn Hsz.
  destruct (@pd_compress_ok B w m a src l) as (m1 & e & Ec & Ho & Hae & Hz & Hi); auto.
  exists m1, e. split; auto. intros m2 H2. apply ok_adj in Hok. split.
  - apply pd_filter_run; auto.
  - apply pd_iter_run; auto. apply pd_holds_contig; auto.
Qed.

(* float weights are dropped: 0's list (1, pattern 7) decodes to weight 0 *)
Theorem C05_pd_float_weight_refuted : forall a, exists m1 e,
  pd_compress 1000 WFloat (fun _ => 0) a 0 0 [(1, 7%Z)] = Some (m1, e) /\
  pd_decode 1000 WFloat (fun _ _ _ => true) m1 a 0 1 = Some [[(1, 0%Z, 0%nat)]].
Proof.
  intros a. exists (fset (fun _ => 0) a 1), (S a). split.
  - cbn. now rewrite !Nat.add_0_r.
  - cbn. rewrite !Nat.add_0_r. unfold walkBlock, eatFirstEdge, eatSigned. now rewrite fset_same.
Qed.
(* a neighbour at distance exactly 2^31 makes the encoder take abs(INT_MIN) *)
Theorem C05_pd_distance_2_31_refuted : forall B m a,
  pd_compress (S B) WEmpty m a 0 0 [(2147483648, 0%Z)] = None.
Proof. intros. unfold pd_compress. cbv zeta. cbn [length nblocks]. reflexivity. Qed.

(* C06: a list that fits in one block is packed correctly, in its own space *)
Theorem C06_pd_pack_one_block : forall B w m a src l (pred : N -> Z -> bool),
  (1 <= B)%nat -> w <> WFloat -> src < two32 -> adj_ok w l -> near src l -> 14 * N.of_nat (length l) < two32 ->
  (1 <= length l <= B)%nat ->
  let kept : list edge := filter (fun e => pred (fst e) (snd e)) l in
  exists m1 e, pd_compress B w m a 0 src l = Some (m1, e) /\
    forall m2, same_in m1 m2 a e ->
      exists m3, pd_pack B w pred m2 a src (length l) = Some (m3, length kept) /\
        same_out m2 m3 a e /\
        forall t, pd_decode B w t m3 a src (length kept)
          = Some (if all_true t 0 kept
                  then match kept with [] => [] | _ => [upto t 0 kept] end
                  else [upto t 0 kept]).
Proof.
  intros B w m a src l pred HB Hw Hs Hl Hn Hsz Hlen kept.
  destruct (@pd_compress_spec B HB w Hw src Hs m a l (proj1 (ok_adj w l) Hl) Hn Hsz) as (m1 & e & E & Hae & He & Ho & Hi).
  exists m1, e. split; [exact E|]. intros m2 H2.
  assert (Hne : l <> []) by (destruct l; simpl in *; [lia|discriminate]).
  specialize (Hi Hne m2 H2). apply ok_adj in Hl.
  destruct (Hi 0%nat ltac:(unfold nblocks; lia)) as [Hh _].
  rewrite block_all in Hh by (auto; lia). unfold pos in Hh.
  rewrite (@nblocks_small B HB src) in Hh by lia. cbn [Nat.sub Nat.mul encB length Nat.add] in Hh. rewrite Nat.add_0_r in Hh.
  destruct (@pd_pack_run B HB w Hw src Hs pred m2 a l Hl Hn Hne ltac:(lia) Hh) as (m3 & Ep & Hfr & Hk).
  fold kept in Ep, Hk.
  exists m3. split; [exact Ep|]. split.
  - intros b Hb. apply Hfr. destruct Hb as [Hb|Hb]; [auto|right].
    rewrite He in Hb. destruct l as [|e0 l0]; [congruence|]. revert Hb. set (l := e0 :: l0) in *. intros Hb.
    unfold pos in Hb. rewrite (@nblocks_small B HB src) in Hb by lia. cbn [Nat.sub Nat.mul encB Nat.add] in Hb.
    rewrite app_nil_r in Hb. rewrite firstn_all2 in Hb by lia. lia.
  - intros t. assert (Hkl : (length kept <= B)%nat).
    { unfold kept. assert (G : forall l0 : list edge, (length (filter (fun e => pred (fst e) (snd e)) l0) <= length l0)%nat);
        [|exact (Nat.le_trans _ _ _ (G l) (proj2 Hlen))]. induction l0 as [|x0 l0 IH]; simpl; auto. destruct (pred _ _); simpl; lia. }
    rewrite (@pd_decode_run B HB w Hw src Hs t m3 a kept); [| |].
    + rewrite (@block_all B edge kept) by auto. f_equal. destruct (all_true t 0 kept); auto.
      destruct kept as [|k0 k'] eqn:Ek.
      * unfold ceil_div. rewrite Nat.div_small by (simpl; lia). reflexivity.
      * rewrite <- Ek in *. rewrite <- nblocks_ceil by (rewrite ?Ek; simpl; lia).
        rewrite (@nblocks_small B HB src) by (rewrite Ek in *; simpl in *; lia). simpl. now rewrite (@block_all B edge kept) by auto.
    + now apply ok_keep.
    + intros Hkne. apply pd_holds_small; auto.
Qed.

(* above one block packing does nothing and returns the old degree, so every
   neighbour that fails the predicate is still there *)
Theorem C06_pd_pack_large_refuted : forall B w m a src l (pred : N -> Z -> bool),
  (1 <= B)%nat -> w <> WFloat -> src < two32 -> adj_ok w l -> near src l -> 14 * N.of_nat (length l) < two32 ->
  (B < length l)%nat ->
  exists m1 e, pd_compress B w m a 0 src l = Some (m1, e) /\
    exists m3 d, pd_pack B w pred m1 a src (length l) = Some (m3, d) /\
      pd_filter B w (fun _ _ => true) m3 a src d = Some l.
Proof.
  intros B w m a src l pred HB Hw Hs Hl Hn Hsz Hlen.
  destruct (@pd_compress_ok B w m a src l) as (m1 & e & Ec & Ho & Hae & Hz & Hi); auto.
  exists m1, e. split; auto. exists m1, (length l). split.
  - unfold pd_pack. now rewrite (proj2 (Nat.leb_gt _ _) Hlen).
  - assert (Hne : l <> []) by (destruct l; simpl in *; [lia|discriminate]).
    apply ok_adj in Hl. rewrite pd_filter_run; auto.
    + f_equal. clear. induction l; simpl; auto. now rewrite IHl.
    + apply Hi; auto. intros b _. reflexivity.
Qed.

(* packing a vertex of degree 0 reads the bytes that follow, here vertex 1's list [5]:
   a vertex without neighbours gets degree 1 *)
Theorem C06_pd_pack_degree_zero_refuted : exists m1 e m3,
  pd_compress 1000 WEmpty (fun _ => 0) 0 0 1 [(5, 0%Z)] = Some (m1, e) /\
  pd_pack 1000 WEmpty (fun _ _ => true) m1 0 0 0 = Some (m3, 1%nat).
Proof.
  exists (fset (fun _ => 0) 0%nat 4), 1%nat, (fset (fset (fun _ => 0) 0%nat 4) 0%nat 4).
  split; reflexivity.
Qed.

(* C10: the reported degree of a block is its size, except that the last block of a
   list whose length is a multiple of the block size is reported empty *)
Theorem C10_pd_block_degree : forall B degree i, (1 <= B)%nat -> (i < ceil_div degree B)%nat ->
  pd_get_num_blocks B degree = ceil_div degree B /\
  pd_get_block_degree B degree i
  = (if (degree mod B =? 0) && (S i =? ceil_div degree B) then 0 else Nat.min B (degree - i * B))%nat.
Proof.
  intros B d i HB Hi.
  assert (Hd : (0 < d)%nat). { destruct d; [|lia]. unfold ceil_div in Hi. rewrite Nat.div_small in Hi; lia. }
  unfold pd_get_block_degree, pd_get_num_blocks. destruct d as [|d']; [lia|]. set (d := S d') in *.
  rewrite nblocks_ceil by lia. split; auto.
  pose proof (nblocks_ceil HB Hd) as Hc. pose proof (nblocks_cover HB d) as Hcov. rewrite Hc in Hcov.
  assert (Hlast : ((ceil_div d B - 1) * B < d)%nat). { apply (nblocks_lt HB); auto. rewrite Hc. lia. }
  destruct (Nat.ltb_spec i (ceil_div d B - 1)) as [H1|H1].
  - destruct (Nat.eqb_spec (S i) (ceil_div d B)) as [H2|H2]; [lia|]. rewrite andb_false_r.
    assert ((S i) * B <= (ceil_div d B - 1) * B)%nat by (apply Nat.mul_le_mono_r; lia). lia.
  - assert (Hi' : i = (ceil_div d B - 1)%nat) by lia.
    rewrite (proj2 (Nat.eqb_eq (S i) _)) by lia. rewrite andb_true_r.
    pose proof (Nat.div_mod d B ltac:(lia)) as Hdm. pose proof (Nat.mod_upper_bound d B ltac:(lia)) as Hm.
    destruct (Nat.eqb_spec (d mod B) 0) as [H0|H0]; auto.
    assert (Hq : (d / B = i)%nat).
    { apply Nat.le_antisymm.
      - assert ((d / B) * B < S i * B)%nat; [|apply Nat.lt_succ_r; now apply Nat.mul_lt_mono_pos_r with B].
        replace (S i) with (ceil_div d B) by lia. lia.
      - apply Nat.div_le_lower_bound; lia. }
    rewrite Nat.min_r; [lia|]. rewrite <- Hq. lia.
Qed.
(* what the reported sizes add up to *)
Theorem C10_pd_block_degree_sum : forall B degree, (1 <= B)%nat -> (1 <= degree)%nat ->
  list_sum (map (pd_get_block_degree B degree) (seq 0 (ceil_div degree B)))
  = (if degree mod B =? 0 then degree - B else degree)%nat.
Proof.
  intros B d HB Hd.
  assert (Hc0 : (0 < ceil_div d B)%nat).
  { unfold ceil_div. apply Nat.div_str_pos. lia. }
  pose proof (nblocks_ceil HB Hd) as Hc. pose proof (nblocks_cover HB d) as Hcov. rewrite Hc in Hcov.
  assert (Hlast : ((ceil_div d B - 1) * B < d)%nat). { apply (nblocks_lt HB); auto. rewrite Hc. lia. }
  assert (G : forall k, (k < ceil_div d B)%nat ->
            list_sum (map (pd_get_block_degree B d) (seq 0 k)) = (k * B)%nat).
  { induction k as [|k IH]; intros Hk; [reflexivity|].
    rewrite seq_S, map_app, list_sum_app, IH by lia. cbn [map list_sum fold_right Nat.add].
    destruct (@C10_pd_block_degree B d k HB ltac:(lia)) as [_ ->].
    destruct (Nat.eqb_spec (S k) (ceil_div d B)) as [E|E]; [lia|]. rewrite andb_false_r.
    assert (S k * B <= (ceil_div d B - 1) * B)%nat by (apply Nat.mul_le_mono_r; lia). lia. }
  destruct (ceil_div d B) as [|c] eqn:Ec; [lia|].
  rewrite seq_S, map_app, list_sum_app, G by lia. cbn [map list_sum fold_right Nat.add].
  destruct (@C10_pd_block_degree B d c HB ltac:(lia)) as [_ ->].
  rewrite Ec, Nat.eqb_refl, andb_true_r.
  replace (S c - 1)%nat with c in * by lia.
  destruct (Nat.eqb_spec (d mod B) 0) as [E|E]; [|lia].
  pose proof (Nat.div_mod d B ltac:(lia)) as Hdm. rewrite E in Hdm.
  assert (d / B = S c)%nat; [|nia]. nia.
Qed.
(* hence the degrees do not sum to the degree exactly when B divides it *)
Theorem C10_pd_block_degree_multiple_refuted : forall B k, (1 <= B)%nat -> (1 <= k)%nat ->
  pd_get_block_degree B (k * B) (k - 1) = 0%nat /\ ceil_div (k * B) B = k.
Proof.
  intros B k HB Hk.
  assert (Hc : ceil_div (k * B) B = k).
  { unfold ceil_div. replace (k * B + B - 1)%nat with (k * B + (B - 1))%nat by lia.
    rewrite Nat.div_add_l by lia. rewrite Nat.div_small by lia. lia. }
  split; auto. destruct (@C10_pd_block_degree B (k * B)%nat (k - 1)%nat HB ltac:(lia)) as [_ ->].
  rewrite Nat.mod_mul by lia. rewrite Hc. rewrite (proj2 (Nat.eqb_eq (S (k - 1)) k)) by lia. reflexivity.
Qed.

(* Non-vacuity *)
Definition pd_ex : list edge := [(3, 5%Z); (200, (-70)%Z); (300, 0%Z); (2147483646, 2147483647%Z); (2147483647, 1%Z)].
Example pd_witness : adj_ok WInt pd_ex /\ near 100 pd_ex /\ 14 * N.of_nat (length pd_ex) < two32.
Proof. split; [split; repeat constructor; simpl; lia|]. split; [repeat constructor; simpl; lia|reflexivity]. Qed.
Example pd_run : match pd_compress 2 WInt (fun _ => 0) 7 0 100 pd_ex with
  | Some (m1, e) => pd_decode 2 WInt (fun v _ _ => negb (v =? 300)) m1 7 100 5
  | None => None
  end = Some [[(3, 5%Z, 0%nat); (200, (-70)%Z, 1%nat)]; [(300, 0%Z, 2%nat)]; [(2147483647, 1%Z, 4%nat)]].
Proof. vm_compute. reflexivity. Qed.

Print Assumptions C05_pd_decode.
Print Assumptions C05_pd_roundtrip.
Print Assumptions C05_pd_map_reduce.
Print Assumptions C05_pd_filter_iter.
Print Assumptions C05_pd_float_weight_refuted.
Print Assumptions C05_pd_distance_2_31_refuted.
Print Assumptions C06_pd_pack_one_block.
Print Assumptions C06_pd_pack_large_refuted.
Print Assumptions C06_pd_pack_degree_zero_refuted.
Print Assumptions C10_pd_block_degree.
Print Assumptions C10_pd_block_degree_multiple_refuted.
Print Assumptions C10_pd_block_degree_sum.
