(* C07, C08: the amortized block codec, for any block size B >= 1 (the code uses 1000).
   AEmpty: unweighted graphs; AInt: int weights.  The other weight types are C08. *)
From Verif Require Import Base ListUtil CodecModel CodecSpec CodecProofs CodecList PDModel PDSpec PDProofs
  AMModel AMSpec AMProofs AMWrite AMPack AMRepack AMIter.
From Coq Require Import NArith ZArith Lia Sorted Permutation.
Local Open Scope N_scope.

Lemma kept_fold ps : forall l : list edge,
  fold_left (fun l p => keep p l) ps l = keep (fun v x => forallb (fun p => p v x) ps) l.
Proof.
  induction ps as [|p ps IH]; intros l; cbn [fold_left forallb].
  - unfold keep. symmetry. apply filter_all. auto.
  - rewrite IH. unfold keep. clear. induction l as [|e l IH]; [reflexivity|]. cbn [filter].
    destruct (p (fst e) (snd e)); cbn [filter andb]; rewrite IH; reflexivity.
Qed.

Section Props.
  Variable B : nat.
  Hypothesis HB : (1 <= B)%nat.
  Variable aw : awty.
  Hypothesis Haw : aw = AEmpty \/ aw = AInt.
  Variable src : N.
  Hypothesis Hsrc : src < two32.

  Lemma history m a l : adj_ok (weights_of aw) l -> l <> [] -> 18 * N.of_nat (length l) < two32 ->
    exists m1 e, am_compress B aw m a src l = Some (m1, e) /\ same_out m m1 a e /\
      forall m2, same_in m1 m2 a e ->
        stored B aw src m2 a (length l) (place B aw src l) (blocks B l) /\
        forall ps m3 d, packs B aw a src m2 (length l) ps m3 d ->
          exists vd p bs, stored B aw src m3 a vd p bs /\ d = length (concat bs) /\
            concat bs = keep (fun v x => forallb (fun p => p v x) ps) l /\ (vd <= length l)%nat /\
            same_out m2 m3 a e.
  Proof.
    intros Hok Hne Hsz. apply ok_adj in Hok.
    destruct (@compress_run B HB aw Haw src Hsrc m a l Hok Hsz) as (m1 & e & E & Hae & Hfr & Hst).
    destruct (Hst Hne) as [He Hst']. exists m1, e. split; auto. split; [exact Hfr|].
    intros m2 H2. specialize (Hst' m2 H2). split; auto. intros ps m3 d Hp.
    rewrite <- (blocks_concat HB l) in Hp at 1.
    destruct (@packs_run B HB aw Haw src Hsrc ps m2 a m3 _ _ _ d Hst' Hp) as (vd & p & bs & Hd & Hst3 & Hc & Hv & Hpp & Hf).
    exists vd, p, bs. split; auto. split; auto. rewrite Hc, kept_fold, (blocks_concat HB). split; auto. split; auto.
    intros b Hb. apply Hf. rewrite blocks_length, <- He. exact Hb.
  Qed.
End Props.

(* C07: encode a list, then pack any number of times with any predicates, under any
   schedules.  The degree is the number of neighbours satisfying all the predicates, only
   bytes of this vertex's own encoding were written, and every reader sees exactly these
   neighbours: split into blocks bs of at most B, decoding makes the calls for each block
   up to its first false answer. *)
Theorem C07_readers_after_any_packs : forall B aw m a src l,
  (1 <= B)%nat -> aw = AEmpty \/ aw = AInt -> src < two32 ->
  adj_ok (weights_of aw) l -> l <> [] -> 18 * N.of_nat (length l) < two32 ->
  exists m1 e, am_compress B aw m a src l = Some (m1, e) /\ same_out m m1 a e /\
    forall m2 ps m3 d, same_in m1 m2 a e -> packs B aw a src m2 (length l) ps m3 d ->
      let kept := filter (fun e => forallb (fun p => p (fst e) (snd e)) ps) l in
      d = length kept /\ same_out m2 m3 a e /\
      am_iter B aw m3 a src d = Some kept /\
      (forall t, am_decode_weighted B aw t m3 a src d = Some (upto t 0 kept)) /\
      (forall pred, am_filter B aw pred m3 a src d = Some (filter (fun e => pred (fst e) (snd e)) kept)) /\
      (forall E (f : N -> Z -> E) (reduce : E -> E -> E) (identity : E),
         (forall x y z, reduce x (reduce y z) = reduce (reduce x y) z) ->
         (forall x, reduce identity x = x) -> (forall x, reduce x identity = x) ->
         am_map_reduce B aw f reduce identity m3 a src d
         = Some (fold_left reduce (map (fun e => f (fst e) (snd e)) kept) identity)) /\
      (kept <> [] -> exists bs, concat bs = kept /\ Forall (fun b => (length b <= B)%nat) bs /\
         am_get_num_blocks B m3 a d = length bs /\
         (forall t, am_decode_unweighted B aw t m3 a src d
            = Some (if all_true t 0 (nth 0 bs [])
                    then map (calls_of t bs) (seq 0 (length bs)) else [calls_of t bs 0])) /\
         (forall i, (i < length bs)%nat ->
            am_get_block_degree B m3 a d i = length (nth i bs []) /\
            forall t, am_decode_block B aw t m3 a src d i = Some (calls_of t bs i))).
Proof.
  intros B aw m a src l HB Haw Hs Hok Hne Hsz.
  destruct (@history B HB aw Haw src Hs m a l Hok Hne Hsz) as (m1 & e & E & Hfr & H).
  exists m1, e. split; auto. split; auto. intros m2 ps m3 d H2 Hp kept.
  destruct (H m2 H2) as [_ Hh]. destruct (Hh ps m3 d Hp) as (vd & p & bs & Hst & Hd & Hc & Hv & Ho).
  change (keep (fun v x => forallb (fun p => p v x) ps) l) with kept in Hc.
  split. { rewrite Hd, Hc. reflexivity. } split; auto.
  assert (Hcase : concat bs = [] \/ concat bs <> []) by (clear; destruct (concat bs); [left|right]; congruence).
  split. { rewrite Hd, <- Hc. apply (@am_iter_run B HB aw Haw src Hs m3 a vd p bs Hst). }
  split; [|split; [|split]].
  - intros t. rewrite Hd, <- Hc. destruct Hcase as [E0|E0]; [rewrite E0; reflexivity|].
    eapply (@decode_weighted_run B HB aw Haw src Hs); eauto.
  - intros pred. rewrite Hd, <- Hc. destruct Hcase as [E0|E0]; [rewrite E0; reflexivity|].
    eapply (@filter_run' B HB aw Haw src Hs); eauto.
  - intros T f red id Ha Hl Hr. rewrite Hd, <- Hc. destruct Hcase as [E0|E0]; [rewrite E0; reflexivity|].
    eapply (@map_reduce_run B HB aw Haw src Hs); eauto.
  - intros Hk. exists bs. rewrite <- Hc in Hk. split; auto. split; [apply (st_len Hst)|]. rewrite Hd.
    split; [|split].
    + pose proof (@st_nb1 B HB aw src Hs m3 a vd p bs Hst) as Hn.
      now destruct (@block_degree_run B HB aw src Hs m3 a vd p bs 0%nat Hst Hk ltac:(lia)).
    + intros t. eapply (@decode_unweighted_run B HB aw Haw src Hs); eauto.
    + intros i Hi. split.
      * now destruct (@block_degree_run B HB aw src Hs m3 a vd p bs i Hst Hk Hi).
      * intros t. eapply (@decode_block_run B HB aw Haw src Hs); eauto.
Qed.

(* just encoded: the blocks are the consecutive blocks of B neighbours, and the simple
   iterator works too *)
Theorem C07_fresh : forall B aw m a src l,
  (1 <= B)%nat -> aw = AEmpty \/ aw = AInt -> src < two32 ->
  adj_ok (weights_of aw) l -> l <> [] -> 18 * N.of_nat (length l) < two32 ->
  exists m1 e, am_compress B aw m a src l = Some (m1, e) /\
    forall m2, same_in m1 m2 a e ->
      am_simple_iter B aw m2 a src (length l) = Some l /\
      am_get_num_blocks B m2 a (length l) = ceil_div (length l) B /\
      (forall i t, (i < ceil_div (length l) B)%nat ->
         am_decode_block B aw t m2 a src (length l) i = Some (upto t (i * B) (block B i l))).
Proof.
  intros B aw m a src l HB Haw Hs Hok Hne Hsz.
  destruct (@history B HB aw Haw src Hs m a l Hok Hne Hsz) as (m1 & e & E & Hfr & H).
  exists m1, e. split; auto. intros m2 H2. destruct (H m2 H2) as [Hst _].
  assert (HL : (0 < length l)%nat) by (destruct l; [congruence|simpl; lia]).
  apply ok_adj in Hok.
  rewrite <- (nblocks_ceil HB) by auto.
  split; [now apply (@simple_iter_run B HB aw Haw src Hs m2 a l)|].
  assert (Hne' : concat (blocks B l) <> []) by (rewrite (blocks_concat HB); auto).
  pose proof (blocks_length B l) as Hbl.
  split.
  - destruct (@block_degree_run B HB aw src Hs m2 a _ _ _ 0%nat Hst Hne' ltac:(rewrite Hbl; unfold nblocks; lia)) as [H1 _].
    rewrite (blocks_concat HB), Hbl in H1. exact H1.
  - intros i t Hi. pose proof (@decode_block_run B HB aw Haw src Hs t m2 a _ _ _ i Hst Hne' ltac:(lia)) as H1.
    rewrite (blocks_concat HB) in H1. rewrite H1. unfold calls_of.
    rewrite (blocks_position HB Hs) by auto. rewrite blocks_nth by auto. reflexivity.
Qed.

(* a list of fewer than 100 blocks can be packed as often as one likes *)
Theorem C07_packing_is_defined : forall B aw m a src l,
  (1 <= B)%nat -> aw = AEmpty \/ aw = AInt -> src < two32 ->
  adj_ok (weights_of aw) l -> l <> [] -> 18 * N.of_nat (length l) < two32 ->
  (ceil_div (length l) B < 100)%nat ->
  exists m1 e, am_compress B aw m a src l = Some (m1, e) /\
    forall m2 ps m3 d, same_in m1 m2 a e -> packs B aw a src m2 (length l) ps m3 d ->
    forall pred o1 o2 o3 o4, schedule o1 -> schedule o2 -> schedule o3 -> schedule o4 ->
      exists m4 d4, am_pack B aw pred o1 o2 o3 o4 m3 a src d = Some (m4, d4).
Proof.
  intros B aw m a src l HB Haw Hs Hok Hne Hsz H100.
  destruct (@history B HB aw Haw src Hs m a l Hok Hne Hsz) as (m1 & e & E & Hfr & H).
  exists m1, e. split; auto. intros m2 ps m3 d H2 Hp pred o1 o2 o3 o4 S1 S2 S3 S4.
  destruct (H m2 H2) as [_ Hh]. destruct (Hh ps m3 d Hp) as (vd & p & bs & Hst & Hd & Hc & Hv & Ho).
  assert (HL : (0 < length l)%nat) by (destruct l; [congruence|simpl; lia]).
  rewrite <- (nblocks_ceil HB) in H100 by auto.
  assert (Hn : length bs <> 100%nat).
  { rewrite (st_nb Hst). unfold nblocks in *.
    pose proof (Nat.div_le_mono (vd - 1) (length l - 1) B ltac:(lia) ltac:(lia)). lia. }
  destruct (@am_pack_run B HB aw Haw src Hs pred o1 o2 o3 o4 m3 a vd p bs Hst S1 S2 S3 S4 Hn) as (m4 & vd4 & p4 & bs4 & E4 & _).
  rewrite Hd, E4. eauto.
Qed.
(* at any number of blocks, a pack is defined exactly when the list does not currently
   occupy 100 blocks: with 100 the count array on the stack is overrun by one *)
Theorem C07_pack_100_blocks_refuted : forall B aw m a src l,
  (1 <= B)%nat -> aw = AEmpty \/ aw = AInt -> src < two32 ->
  adj_ok (weights_of aw) l -> l <> [] -> 18 * N.of_nat (length l) < two32 ->
  exists m1 e, am_compress B aw m a src l = Some (m1, e) /\
    (ceil_div (length l) B = 100%nat ->
     forall pred o1 o2 o3 o4, am_pack B aw pred o1 o2 o3 o4 m1 a src (length l) = None) /\
    (ceil_div (length l) B <> 100%nat ->
     forall pred o1 o2 o3 o4, schedule o1 -> schedule o2 -> schedule o3 -> schedule o4 ->
     am_pack B aw pred o1 o2 o3 o4 m1 a src (length l) <> None).
Proof.
  intros B aw m a src l HB Haw Hs Hok Hne Hsz.
  destruct (@history B HB aw Haw src Hs m a l Hok Hne Hsz) as (m1 & e & E & Hfr & H).
  exists m1, e. split; auto. destruct (H m1) as [Hst _]. { intros b _. reflexivity. }
  assert (HL : (0 < length l)%nat) by (destruct l; [congruence|simpl; lia]).
  rewrite <- (nblocks_ceil HB) by auto.
  split.
  - intros H100 pred o1 o2 o3 o4. rewrite <- (blocks_concat HB l) at 1.
    eapply am_pack_100; eauto. now rewrite blocks_length.
  - intros H100 pred o1 o2 o3 o4 S1 S2 S3 S4. rewrite <- (blocks_concat HB l) at 1.
    destruct (@am_pack_run B HB aw Haw src Hs pred o1 o2 o3 o4 m1 a _ _ _ Hst S1 S2 S3 S4) as (m4 & vd4 & p4 & bs4 & E4 & _).
    + now rewrite blocks_length.
    + rewrite E4. discriminate.
Qed.

(* a vertex without neighbours occupies no bytes, and packing it reads the header of the
   vertex stored next; if that one has more than one block, the block sizes wrap around *)
Theorem C07_pack_degree_zero_refuted : forall B aw m a src l,
  (1 <= B)%nat -> aw = AEmpty \/ aw = AInt -> src < two32 ->
  adj_ok (weights_of aw) l -> (B < length l)%nat -> 18 * N.of_nat (length l) < two32 ->
  forall src0, am_compress B aw m a src0 [] = Some (m, a) /\
  exists m1 e, am_compress B aw m a src l = Some (m1, e) /\
    forall pred o2 o3 o4, exists o1, schedule o1 /\ am_pack B aw pred o1 o2 o3 o4 m1 a src0 0 = None.
Proof.
  intros B aw m a src l HB Haw Hs Hok Hlen Hsz src0. split; [reflexivity|].
  assert (Hne : l <> []) by (intros ->; simpl in Hlen; lia).
  destruct (@history B HB aw Haw src Hs m a l Hok Hne Hsz) as (m1 & e & E & Hfr & H).
  exists m1, e. split; auto. destruct (H m1) as [Hst _]. { intros b _. reflexivity. }
  intros pred o2 o3 o4. exists (fun n => rev (seq 0 n)). split.
  { intros n. apply Permutation_sym, Permutation_rev. }
  unfold am_pack. cbv zeta. rewrite (@st_am_nb B aw src m1 a _ _ _ Hst).
  pose proof (blocks_length B l) as Hbl.
  assert (Hnb : (1 < length (blocks B l))%nat) by (rewrite Hbl; apply (nblocks_ge HB); lia).
  destruct (length (blocks B l)) as [|n] eqn:En; [lia|].
  rewrite seq_S, rev_app_distr. cbn [rev app am_packBlocks Nat.add].
  unfold am_packBlock. rewrite <- En.
  rewrite (@st_start B HB aw src Hs m1 a _ _ _ n Hst) by lia.
  rewrite (blocks_position HB Hs) by lia. unfold am_end. rewrite En at 1.
  replace (S n - 1)%nat with n by lia. rewrite Nat.eqb_refl.
  rewrite (proj2 (Nat.ltb_lt _ _)) by nia. reflexivity.
Qed.

(* get_ith_neighbor: only the first neighbour of each block is returned for its own
   position, every other request gets the neighbour before the one asked for *)
Theorem C07_get_ith_neighbor_refuted : forall B aw m a src l,
  (1 <= B)%nat -> aw = AEmpty \/ aw = AInt -> src < two32 ->
  adj_ok (weights_of aw) l -> l <> [] -> 18 * N.of_nat (length l) < two32 ->
  exists m1 e, am_compress B aw m a src l = Some (m1, e) /\
    forall i, (i < length l)%nat ->
      am_get_ith B aw m1 a src (length l) i
      = nth_error l (if (i mod B =? 0)%nat then i else i - 1)%nat.
Proof.
  intros B aw m a src l HB Haw Hs Hok Hne Hsz.
  destruct (@history B HB aw Haw src Hs m a l Hok Hne Hsz) as (m1 & e & E & Hfr & H).
  exists m1, e. split; auto. destruct (H m1) as [Hst _]. { intros b _. reflexivity. }
  intros i Hi. pose proof (blocks_concat HB l) as Hc.
  destruct (@get_ith_run B HB aw Haw src Hs m1 a _ _ _ Hst i) as (b & Hb & Hp & Hg); [now rewrite Hc|].
  rewrite Hc in Hg. rewrite Hg. rewrite blocks_length in Hb.
  rewrite (blocks_position HB Hs) in * by (auto; lia).
  assert (Hp2 : (i < b * B + B)%nat).
  { destruct Hp as [_ Hp]. rewrite position_S in Hp by now rewrite blocks_length.
    rewrite (blocks_position HB Hs), blocks_nth in Hp by (auto; lia).
    rewrite (block_length HB) in Hp. unfold pd_count in Hp. lia. }
  assert (Ei : i = (B * b + (i - b * B))%nat) by lia.
  assert (Em : (i mod B = i - b * B)%nat) by (symmetry; apply (Nat.mod_unique i B b); lia).
  rewrite Em. replace (i =? b * B)%nat with (i - b * B =? 0)%nat.
  - symmetry. apply nth_error_nth'. destruct (i - b * B =? 0)%nat; lia.
  - destruct (Nat.eqb_spec (i - b * B) 0), (Nat.eqb_spec i (b * B)); auto; lia.
Qed.

(* after packing, the simple iterator (used by intersect) looks for the blocks where a
   fresh list of the new degree would have them: it starts with the source itself *)
Theorem C07_simple_iter_packed_refuted : forall B m a src l pred,
  (1 <= B)%nat -> src < two32 -> adj_ok WEmpty l -> 18 * N.of_nat (length l) < two32 ->
  let kept := filter (fun e : edge => pred (fst e) (snd e)) l in
  (B < length l <= 2 * B)%nat -> (0 < length kept <= B)%nat -> (length l / 10 <= length kept)%nat ->
  ~ In src (map fst l) ->
  exists m1 e, am_compress B AEmpty m a src l = Some (m1, e) /\
    forall o1 o2 o3 o4, schedule o1 -> schedule o2 -> schedule o3 -> schedule o4 ->
    exists m3, am_pack B AEmpty pred o1 o2 o3 o4 m1 a src (length l) = Some (m3, length kept) /\
      am_simple_iter B AEmpty m3 a src (length kept) <> Some kept.
Proof.
  intros B m a src l pred HB Hs Hok Hsz kept Hlen Hk Hrep Hsrc.
  assert (Hne : l <> []) by (intros ->; simpl in Hlen; lia).
  assert (Haw : AEmpty = AEmpty \/ AEmpty = AInt) by auto.
  destruct (@history B HB AEmpty Haw src Hs m a l Hok Hne Hsz) as (m1 & e & E & Hfr & H).
  exists m1, e. split; auto. destruct (H m1) as [Hst _]. { intros b _. reflexivity. }
  intros o1 o2 o3 o4 S1 S2 S3 S4.
  pose proof (blocks_length B l) as Hbl. pose proof (blocks_concat HB l) as Hc.
  assert (Hnb : nblocks B (length l) = 2%nat).
  { rewrite (@nblocks_minus B HB) by lia. f_equal. apply (@nblocks_small B HB src Hs). lia. }
  unfold am_pack. cbv zeta. rewrite (@st_am_nb B AEmpty src m1 a _ _ _ Hst), (st_vd Hst).
  destruct (@pack_phase12 B HB AEmpty Haw src Hs pred m1 a _ _ _ Hst (o1 (length (blocks B l))) (o2 (length (blocks B l))))
    as (m2 & cts & Ep & Hsc & Hst2 & _); auto.
  rewrite Hc in Ep. rewrite Ep. rewrite Hbl, Hnb in *. cbn [Nat.eqb].
  rewrite Hsc, Hc. change (keep pred l) with kept. rewrite (proj2 (Nat.ltb_ge _ _)) by lia.
  eexists. split; [reflexivity|]. set (m3 := am_headers _ _ _ _ _) in *.
  assert (Hz : m3 (a + 8)%nat = 0).
  { pose proof (st_hdr Hst2 (i := 0%nat)) as Hh. rewrite map_length, Hbl in Hh. specialize (Hh ltac:(lia)).
    rewrite position_0 in Hh. cbn [place] in Hh. rewrite Hnb in Hh. cbn [Nat.mul Nat.add] in Hh.
    unfold uint_at, load32 in Hh. lia. }
  unfold am_simple_iter. destruct (length kept) as [|n] eqn:En; [lia|].
  rewrite (@nblocks_small B HB src Hs (S n)) by lia. cbn [Nat.sub Nat.mul]. rewrite Nat.add_0_r.
  assert (Hf : eatFirstEdge m3 (a + 8) src = Some (src, S (a + 8))).
  { rewrite (@eatFirstEdge_reads m3 (a + 8) src src Hs Hs).
    - f_equal. f_equal. rewrite Z.sub_diag. cbn. lia.
    - rewrite Z.sub_diag. change (sbytes 0) with [0]. apply holds_cons. split; [exact Hz|apply holds_nil]. }
  rewrite Hf. cbn [am_eW]. destruct (am_simpleRest _ _ _ _ _ _ _ _); [|discriminate].
  intros Heq. injection Heq as Heq. apply Hsrc.
  assert (Hin : In (src, 0%Z) kept) by (rewrite <- Heq; now left).
  unfold kept in Hin. apply filter_In in Hin as [Hin _]. now apply (in_map fst) in Hin.
Qed.

(* C08: unweighted and int-weighted lists come back with their weights; C07 says so for
   every reader and after any packs, this is the plain statement *)
Theorem C08_int_weights_survive : forall B m a src l, (1 <= B)%nat -> src < two32 ->
  l <> [] -> 18 * N.of_nat (length l) < two32 ->
  StronglySorted N.lt (map fst l) ->
  Forall (fun e => fst e < two32 /\ (-2147483648 < snd e < 2147483648)%Z) l ->
  exists m1 e, am_compress B AInt m a src l = Some (m1, e) /\
    am_decode_weighted B AInt (fun _ _ _ => true) m1 a src (length l)
    = Some (map (fun q => (fst (fst q), snd (fst q), snd q)) (combine l (seq 0 (length l)))) /\
    am_iter B AInt m1 a src (length l) = Some l.
Proof.
  intros B m a src l HB Hs Hne Hsz Hsort Hall.
  assert (Haw : AInt = AEmpty \/ AInt = AInt) by auto.
  destruct (@C07_readers_after_any_packs B AInt m a src l HB Haw Hs) as (m1 & e & E & _ & H); auto.
  { split; auto. }
  destruct (H m1 [] m1 (length l)) as (_ & _ & Hit & Hd & _).
  - intros b _. reflexivity.
  - constructor.
  - assert (Ek : filter (fun e : edge => forallb (fun p => p (fst e) (snd e)) []) l = l) by now apply filter_all.
    exists m1, e. split; auto. split.
    + rewrite Hd. f_equal. etransitivity; [|apply upto_true]. now f_equal.
    + rewrite Hit. now f_equal.
Qed.

(* For the other weight types nothing is stored: lists with the same neighbours and
   different weights have the same encoding, so no reader can return the weights. *)
Theorem C08_other_weights_refuted : forall B aw m a src (l l' : list edge),
  aw = AUint \/ aw = AFloat \/ aw = ADouble -> map fst l = map fst l' ->
  am_compress B aw m a src l = am_compress B aw m a src l'.
Proof.
  intros B aw m a src l l' Haw Hm.
  assert (Hc : forall m o x y, am_cW aw m o x = am_cW aw m o y) by (destruct Haw as [->|[->| ->]]; reflexivity).
  assert (Hr : forall (l l' : list edge) m o v, map fst l = map fst l' ->
    writeRest (am_cW aw) m o v l = writeRest (am_cW aw) m o v l').
  { clear -Hc. induction l as [|[u x] l IH]; intros [|[u' x'] l'] m o v Hm; try discriminate; auto.
    injection Hm as -> Hm. cbn [writeRest]. destruct (compressEdge _ _ _) as [[m1 o1]|]; auto.
    rewrite (Hc m1 o1 x x'). destruct (am_cW aw m1 o1 x') as [[m2 o2]|]; auto. }
  assert (Hb : forall (l l' : list edge) m o, map fst l = map fst l' ->
    writeBlock am_cF (am_cW aw) m o src l = writeBlock am_cF (am_cW aw) m o src l').
  { clear -Hc Hr. intros [|[u x] l] [|[u' x'] l'] m o Hm; try discriminate; auto.
    injection Hm as -> Hm. unfold writeBlock. destruct (am_cF _ _ _ _) as [[m1 o1]|]; auto.
    rewrite (Hc m1 o1 x x'). destruct (am_cW aw m1 o1 x') as [[m2 o2]|]; auto. }
  assert (Hbs : forall k m cur i (l l' : list edge), map fst l = map fst l' ->
    am_compressBlocks B aw k m a cur i src l = am_compressBlocks B aw k m a cur i src l').
  { clear -Hb. induction k as [|k IH]; intros m cur i l l' Hm; auto. cbn [am_compressBlocks].
    rewrite (Hb (firstn B l) (firstn B l')) by (rewrite <- !firstn_map; now f_equal).
    destruct (writeBlock _ _ _ _ _ _) as [[m1 c1]|]; auto. apply IH. rewrite <- !skipn_map. now f_equal. }
  assert (Hl : length l = length l') by (apply (f_equal (@length N)) in Hm; now rewrite !map_length in Hm).
  unfold am_compress. destruct l as [|x l], l' as [|x' l']; try discriminate; auto.
  rewrite Hl. now apply Hbs.
Qed.
(* ... and reading consumes bytes that were never written: even the neighbours change *)
Theorem C08_other_weights_neighbours_refuted : exists m1 e,
  am_compress 1000 AFloat (fun _ => 0) 0 0 [(1, 5%Z); (2, 5%Z); (3, 5%Z)] = Some (m1, e) /\
  option_map (map fst) (am_iter 1000 AFloat m1 0 0 3) = Some [1; 1; 1].
Proof. eexists _, _. split; [vm_compute; reflexivity|vm_compute; reflexivity]. Qed.

(* -- the hypotheses are met -------------------------------------------------- *)
Example C07_instance :
  let l := [(3, 0%Z); (5, 0%Z); (9, 0%Z); (12, 0%Z); (700, 0%Z)] in
  adj_ok WEmpty l /\ 18 * N.of_nat (length l) < two32 /\ (2 < length l)%nat /\ (ceil_div (length l) 2 < 100)%nat.
Proof.
  cbn. repeat split; try (repeat constructor; fail); try lia.
Qed.
Lemma seq_schedule : schedule (seq 0).
Proof. intros n. apply Permutation_refl. Qed.
(* five neighbours in blocks of two, packed twice: 700, 3 dropped, then 9 *)
Example C07_packs_instance : exists m1 e m3,
  am_compress 2 AEmpty (fun _ => 0) 0 1 [(3, 0%Z); (5, 0%Z); (9, 0%Z); (12, 0%Z); (700, 0%Z)] = Some (m1, e) /\
  packs 2 AEmpty 0 1 m1 5 [(fun v _ => (3 <? v) && (v <? 100)); (fun v _ => negb (v =? 9))] m3 2 /\
  am_decode_unweighted 2 AEmpty (fun _ _ _ => true) m3 0 1 2
  = Some [[(5, 0%Z, 0%nat)]; [(12, 0%Z, 1%nat)]; []].
Proof.
  eexists _, _, _. split; [vm_compute; reflexivity|]. split.
  - change [(fun v (_ : Z) => (3 <? v) && (v <? 100)); (fun v (_ : Z) => negb (v =? 9))]
      with ([fun v (_ : Z) => (3 <? v) && (v <? 100)] ++ [fun v (_ : Z) => negb (v =? 9)]).
    eapply packs_snoc with (o1 := seq 0) (o2 := seq 0) (o3 := seq 0) (o4 := seq 0); try apply seq_schedule.
    + change [fun v (_ : Z) => (3 <? v) && (v <? 100)] with ([] ++ [fun v (_ : Z) => (3 <? v) && (v <? 100)]).
      eapply packs_snoc with (o1 := seq 0) (o2 := seq 0) (o3 := seq 0) (o4 := seq 0); try apply seq_schedule.
      * constructor.
      * vm_compute. reflexivity.
    + vm_compute. reflexivity.
  - vm_compute. reflexivity.
Qed.
(* twenty-one neighbours in blocks of two packed down to one: it is repacked *)
Example C07_repack_instance :
  match am_compress 2 AInt (fun _ => 0) 0 1 (map (fun i => (N.of_nat i, Z.of_nat i)) (seq 2 21)) with
  | None => None
  | Some (m1, e) =>
      match am_pack 2 AInt (fun v _ => v =? 9) (seq 0) (seq 0) (seq 0) (seq 0) m1 0 1 21 with
      | None => None
      | Some (m3, d) => Some (d, am_nb 2 m1 0, am_nb 2 m3 0, am_iter 2 AInt m3 0 1 d)
      end
  end = Some (1%nat, 11%nat, 1%nat, Some [(9, 9%Z)]).
Proof. vm_compute. reflexivity. Qed.
Example C07_simple_iter_instance :
  let l := [(3, 0%Z); (5, 0%Z); (9, 0%Z)] in
  adj_ok WEmpty l /\ (2 < length l <= 2 * 2)%nat /\ ~ In 1 (map fst l) /\
  length (filter (fun e : edge => negb (fst e =? 5)) l) = 2%nat.
Proof.
  cbn. repeat split; try lia; repeat constructor.
Qed.
Example C08_instance :
  let l := [(3, 7%Z); (5, (-200)%Z); (900000, 2147483647%Z)] in
  StronglySorted N.lt (map fst l) /\ Forall (fun e => fst e < two32 /\ (-2147483648 < snd e < 2147483648)%Z) l.
Proof. cbn. split; repeat constructor. Qed.
Example C08_other_instance : map fst [(3, 7%Z); (5, 8%Z)] = map fst [(3, 9%Z); (5, 1%Z)] /\ 7%Z <> 9%Z.
Proof. split; [reflexivity|discriminate]. Qed.

Print Assumptions C07_readers_after_any_packs.
Print Assumptions C07_fresh.
Print Assumptions C07_packing_is_defined.
Print Assumptions C07_pack_100_blocks_refuted.
Print Assumptions C07_pack_degree_zero_refuted.
Print Assumptions C07_get_ith_neighbor_refuted.
Print Assumptions C07_simple_iter_packed_refuted.
Print Assumptions C08_int_weights_survive.
Print Assumptions C08_other_weights_refuted.
Print Assumptions C08_other_weights_neighbours_refuted.
