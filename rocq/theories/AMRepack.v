(* The amortized codec: repack and whole histories of packs. *)
From Verif Require Import Base ListUtil CodecModel CodecSpec CodecProofs CodecList PDModel PDSpec PDProofs
  AMModel AMSpec AMProofs AMWrite AMPack.
From Coq Require Import NArith ZArith Lia Sorted Permutation.
Local Open Scope N_scope.

Lemma nth_firstn' {A} (l : list A) d : forall n i, (i < n)%nat -> nth i (firstn n l) d = nth i l d.
Proof.
  induction l as [|x l IH]; intros [|n] i H; try (cbn; destruct i; reflexivity); [lia|].
  destruct i; cbn; auto. apply IH. lia.
Qed.
Lemma nth_skipn' {A} (l : list A) d : forall n i, nth i (skipn n l) d = nth (n + i) l d.
Proof. induction l as [|x l IH]; intros [|n] i; cbn; auto. destruct i; reflexivity. Qed.

Section AM.
  Variable B : nat.
  Hypothesis HB : (1 <= B)%nat.
  Variable aw : awty.
  Hypothesis Haw : aw = AEmpty \/ aw = AInt.
  Variable src : N.
  Hypothesis Hsrc : src < two32.
  Notation w := (weights_of aw).
  Notation en := (enc (weights_of aw) src).

  (* -- sizes: merging and splitting lists -------------------------------------- *)
  Lemma gap_len v p : p < v -> v < two32 -> (1 <= length (vbytes (v - p)) <= 5)%nat.
  Proof.
    intros H1 H2. split.
    - destruct (length (vbytes (v - p))) eqn:E; [|lia]. apply vlen_0 in E. lia.
    - apply vbytes_len. lia.
  Qed.
  Lemma first_len d : (1 <= length (sbytes d) <= 5)%nat.
  Proof. split; [unfold sbytes; simpl; lia|apply sbytes_len]. Qed.
  Lemma encRest_app l1 : forall p l2, okRest w p (l1 ++ l2) ->
    (length (encRest w p (l1 ++ l2)) <= length (encRest w p l1) + length (en l2) + 4 /\
     length (encRest w p l1) + length (en l2) <= length (encRest w p (l1 ++ l2)) + 4)%nat.
  Proof.
    induction l1 as [|[v x] l1 IH]; intros p l2 H.
    - cbn [app encRest length] in *. destruct l2 as [|[v x] l2]; [simpl; lia|].
      cbn [okRest] in H. destruct H as (H1 & H2 & H3 & H4). cbn [encRest enc]. rewrite !app_length.
      pose proof (gap_len H1 H2). pose proof (first_len (Z.of_N v - Z.of_N src)). lia.
    - cbn [app encRest okRest] in *. destruct H as (H1 & H2 & H3 & H4). rewrite !app_length.
      apply IH in H4. lia.
  Qed.
  Lemma en_app l1 l2 : ok w (l1 ++ l2) ->
    (length (en (l1 ++ l2)) <= length (en l1) + length (en l2) + 4 /\
     length (en l1) + length (en l2) <= length (en (l1 ++ l2)) + 4)%nat.
  Proof.
    destruct l1 as [|[v x] l1]; intros H; [simpl; lia|].
    cbn [app enc ok] in *. destruct H as (H1 & H2 & H3). rewrite !app_length. apply encRest_app in H3. lia.
  Qed.
  Definition total (bs : list (list edge)) : nat := list_sum (map (fun b => length (en b)) bs).
  Lemma en_concat bs : ok w (concat bs) -> bs <> [] ->
    (length (en (concat bs)) + 4 <= total bs + 4 * length bs /\
     total bs + 4 <= length (en (concat bs)) + 4 * length bs)%nat.
  Proof.
    unfold total. induction bs as [|b bs IH]; intros H Hne; [congruence|].
    cbn [concat map list_sum fold_right length] in *. destruct bs as [|b' bs].
    - cbn [concat map fold_right length]. rewrite app_nil_r. lia.
    - pose proof (en_app _ _ H) as Ha. apply ok_app_r in H. specialize (IH H ltac:(discriminate)). 
      set (c := concat (b' :: bs)) in *. set (t := fold_right _ _ _) in *. cbn [length] in *.
      unfold list_sum in IH. lia.
  Qed.

  (* -- repack ----------------------------------------------------------------- *)
  Lemma stores_in l : forall U k j d, (k <= j < k + length l)%nat -> stores U k l j = nth (j - k) l d.
  Proof.
    assert (Hout : forall l U k j, (j < k)%nat -> stores U k l j = U j).
    { induction l0 as [|e l0 IH]; intros U k j H; cbn [stores]; auto. rewrite IH by lia. apply fset_other. lia. }
    induction l as [|e l IH]; intros U k j d H; cbn [length] in H; [lia|]. cbn [stores].
    destruct (Nat.eq_dec j k) as [->|Hj].
    - rewrite Hout by lia. rewrite fset_same, Nat.sub_diag. reflexivity.
    - rewrite (IH _ _ _ d) by lia. replace (j - k)%nat with (S (j - S k)) by lia. reflexivity.
  Qed.
  Lemma stores_out l : forall U k j, ~ (k <= j < k + length l)%nat -> stores U k l j = U j.
  Proof.
    induction l as [|e l IH]; intros U k j H; cbn [stores length] in *; auto. rewrite IH by lia. apply fset_other. lia.
  Qed.
  Lemma collect_run m a vd p bs : stored B aw src m a vd p bs -> let L := concat bs in
    forall ord U, (forall i, In i ord -> (i < length bs)%nat) ->
    exists U', am_collect aw ord U m a src (length bs) (length L) = Some U' /\
      forall k, (U k = nth k L ((0, 0%Z) : edge) \/ exists i, In i ord /\ (position bs i <= k < position bs (S i))%nat) ->
        U' k = nth k L ((0, 0%Z) : edge).
  Proof.
    intros Hst L. induction ord as [|i ord IH]; intros U Hlt.
    - exists U. split; [reflexivity|]. intros k [H|(i & [] & _)]. exact H.
    - cbn [am_collect]. assert (Hi : (i < length bs)%nat) by (apply Hlt; now left).
      unfold L. rewrite (@st_read B HB aw Haw src Hsrc m a vd p bs i Hst Hi).
      rewrite (@st_start B HB aw src Hsrc m a vd p bs i Hst Hi).
      destruct (IH (stores U (position bs i) (nth i bs []))) as (U' & E & H). { intros; apply Hlt; now right. }
      exists U'. split; [exact E|]. intros k Hk. apply H.
      destruct (Nat.le_gt_cases (position bs i) k) as [H1|H1]; [destruct (Nat.lt_ge_cases k (position bs (S i))) as [H2|H2]|].
      + left. rewrite position_S in H2 by auto. rewrite (@stores_in _ _ _ _ (0, 0%Z)) by lia.
        rewrite <- position_nth by lia. f_equal. lia.
      + destruct Hk as [Hk|(j & [<-|Hj] & H3)]; [|lia|right; eauto].
        left. rewrite stores_out; auto. rewrite position_S in H2 by auto. lia.
      + destruct Hk as [Hk|(j & [<-|Hj] & H3)]; [|lia|right; eauto].
        left. rewrite stores_out; auto. lia.
  Qed.
  Lemma newBlock_run (L : list edge) U i : (forall k, (k < length L)%nat -> U k = nth k L ((0, 0%Z) : edge)) ->
    am_newBlock B U (length L) i = block B i L.
  Proof.
    intros H. unfold am_newBlock, block. apply list_ext_nth with (0, 0%Z).
    - rewrite map_length, seq_length, firstn_length, skipn_length. reflexivity.
    - intros j Hj. rewrite map_length, seq_length in Hj.
      rewrite nth_indep with (d' := U 0%nat) by (rewrite map_length, seq_length; exact Hj).
      rewrite map_nth, seq_nth by auto. rewrite H by lia.
      rewrite nth_firstn' by lia. now rewrite nth_skipn'.
  Qed.
  Lemma scan_place L sizes : sizes = map (fun i => (4 + length (en (block B i L)))%nat) (seq 0 (nblocks B (length L))) ->
    forall i, (i <= nblocks B (length L))%nat ->
    (4 * nblocks B (length L) + scan (fun i => nth i sizes 0%nat) i)%nat = place B aw src L i.
  Proof.
    intros -> i. induction i as [|i IH]; intros Hi; [cbn; lia|].
    unfold scan in *. rewrite seq_S, Nat.add_0_l, map_app, list_sum_app. cbn [map list_sum fold_right place].
    rewrite <- IH by lia.
    rewrite (@nth_map_seq _ (fun i => (4 + length (en (block B i L)))%nat)) by lia. unfold list_sum. lia.
  Qed.

  Lemma total_blocks L : place B aw src L (nblocks B (length L)) = (8 * nblocks B (length L) + total (blocks B L))%nat.
  Proof.
    unfold total, blocks. rewrite map_map.
    assert (G : forall k, place B aw src L k = (4 * nblocks B (length L) + 4 * k
              + list_sum (map (fun i => length (en (block B i L))) (seq 0 k)))%nat).
    { induction k as [|k IH]; [cbn; lia|].
      rewrite seq_S, Nat.add_0_l, map_app, list_sum_app. cbn [map list_sum fold_right place]. rewrite IH. lia. }
    rewrite G. lia.
  Qed.
  Lemma total_stored m a vd p bs : stored B aw src m a vd p bs -> (8 * length bs + total bs <= p (length bs))%nat.
  Proof.
    intros Hst.
    assert (G : forall k, (k <= length bs)%nat -> (4 * length bs + 4 * k + total (firstn k bs) <= p k)%nat).
    { induction k as [|k IH]; intros Hk.
      - rewrite (lay_0 (st_lay Hst)). unfold total. cbn [firstn map list_sum fold_right]. lia.
      - specialize (IH ltac:(lia)). pose proof (st_fit Hst (i := k) ltac:(lia)) as Hf.
        assert (E : total (firstn (S k) bs) = (total (firstn k bs) + length (en (nth k bs [])))%nat).
        { unfold total. clear -Hk. revert k Hk. induction bs as [|b bs IH]; intros k Hk; [simpl in Hk; lia|].
          destruct k as [|k]; [cbn; lia|].
          change (list_sum (map (fun b => length (en b)) (b :: firstn (S k) bs))
                  = (list_sum (map (fun b => length (en b)) (b :: firstn k bs)) + length (en (nth k bs [])))%nat).
          cbn [map list_sum fold_right]. specialize (IH k ltac:(simpl in Hk; lia)). unfold list_sum in IH. lia. }
        lia. }
    specialize (G (length bs) ltac:(lia)). rewrite firstn_all in G. lia.
  Qed.
  Lemma repack_fits m a vd p bs : stored B aw src m a vd p bs -> (1 <= length (concat bs))%nat ->
    (length (concat bs) < vd / 10)%nat ->
    (place B aw src (concat bs) (nblocks B (length (concat bs))) <= p (length bs))%nat.
  Proof.
    intros Hst H1 Hlt. pose proof (total_stored Hst) as Ht. rewrite total_blocks.
    set (L := concat bs) in *.
    pose proof (@st_nb1 B HB aw src Hsrc m a vd p bs Hst) as Hnb.
    assert (Hbs : bs <> []) by (destruct bs; [simpl in Hnb; lia|discriminate]).
    destruct (@en_concat bs (st_ok Hst) Hbs) as [A1 _]. fold L in A1.
    assert (Hb2 : blocks B L <> []).
    { intros E. pose proof (blocks_length B L) as El. rewrite E in El. unfold nblocks in El. simpl in El. lia. }
    destruct (@en_concat (blocks B L)) as [_ A2]; auto.
    { rewrite (blocks_concat HB). apply (st_ok Hst). }
    rewrite (blocks_concat HB), blocks_length in A2.
    enough (3 * nblocks B (length L) <= 2 + length bs)%nat by lia.
    rewrite (st_nb Hst). unfold nblocks.
    assert (Hv : (10 * (vd / 10) <= vd)%nat) by (apply Nat.mul_div_le; lia).
    assert (G : (3 * ((length L - 1) / B) <= (vd - 1) / B)%nat).
    { apply Nat.div_le_lower_bound; [lia|]. pose proof (Nat.mul_div_le (length L - 1) B ltac:(lia)). nia. }
    lia.
  Qed.

  Lemma repack_run o1 o2 m a vd p bs : stored B aw src m a vd p bs -> (length (concat bs) < vd / 10)%nat ->
    schedule o1 -> schedule o2 ->
    exists m' vd' p' bs', am_repack B aw o1 o2 m a src (length (concat bs)) = Some m' /\
      stored B aw src m' a vd' p' bs' /\ concat bs' = concat bs /\ (vd' <= vd)%nat /\
      (p' (length bs') <= p (length bs))%nat /\
      (forall b, (b < a \/ a + p (length bs) <= b)%nat -> m' b = m b).
  Proof.
    intros Hst Hlt Ho1 Ho2. unfold am_repack. destruct (length (concat bs)) as [|n] eqn:En.
    { exists m, vd, p, bs. repeat split; auto; try apply Hst. }
    rewrite <- En in *. set (L := concat bs) in *.
    rewrite (@st_am_nb B aw src m a vd p bs Hst).
    assert (Hv : (10 * (vd / 10) <= vd)%nat) by (apply Nat.mul_div_le; lia).
    pose proof (st_size Hst) as Hsz.
    destruct (@collect_run m a vd p bs Hst (o1 (length bs)) (fun _ => ((0, 0%Z) : edge))) as (U & EU & HU).
    { intros i Hi. apply (Permutation_in _ (Ho1 (length bs))) in Hi. apply in_seq in Hi. lia. }
    fold L in EU, HU. rewrite EU.
    assert (HU' : forall k, (k < length L)%nat -> U k = nth k L ((0, 0%Z) : edge)).
    { intros k Hk. apply HU. right. destruct (@position_find _ bs k Hk) as (i & Hi & Hp). exists i. split; auto.
      apply (Permutation_in _ (Permutation_sym (Ho1 (length bs)))). apply in_seq. lia. }
    rewrite for_blocks_some with (g := fun i => (4 + length (en (block B i L)))%nat).
    2:{ intros i Hi. rewrite (@newBlock_run L U i HU'). unfold am_blockBytes.
        rewrite (@am_wB aw Haw) by (apply ok_first, ok_skip, (st_ok Hst)). reflexivity. }
    set (sizes := map _ _).
    destruct (@rewrite_run B HB aw Haw src Hsrc L a U (fun i => nth i sizes O)) with (ord := o2 (nblocks B (length L))) (m := m)
      as (m' & E & Hfr & Hst'); auto.
    - lia.
    - apply (st_ok Hst).
    - lia.
    - intros i _. now apply newBlock_run.
    - apply scan_place. reflexivity.
    - exists m', (length L), (place B aw src L), (blocks B L). split; [exact E|]. split; [exact Hst'|].
      split; [apply (blocks_concat HB)|]. split; [lia|].
      pose proof (@repack_fits m a vd p bs Hst ltac:(fold L; lia) Hlt) as Hfit. fold L in Hfit.
      rewrite blocks_length. split; [exact Hfit|]. intros b Hb. apply Hfr. lia.
  Qed.

  (* -- pack ------------------------------------------------------------------- *)
  Lemma am_pack_run pred o1 o2 o3 o4 m a vd p bs : stored B aw src m a vd p bs ->
    schedule o1 -> schedule o2 -> schedule o3 -> schedule o4 -> length bs <> 100%nat ->
    exists m' vd' p' bs', am_pack B aw pred o1 o2 o3 o4 m a src (length (concat bs)) = Some (m', length (concat bs')) /\
      stored B aw src m' a vd' p' bs' /\ concat bs' = keep pred (concat bs) /\ (vd' <= vd)%nat /\
      (p' (length bs') <= p (length bs))%nat /\
      (forall b, (b < a \/ a + p (length bs) <= b)%nat -> m' b = m b).
  Proof.
    intros Hst H1 H2 H3 H4 Hnb. unfold am_pack. cbv zeta. rewrite (@st_am_nb B aw src m a vd p bs Hst), (st_vd Hst).
    destruct (@pack_phase12 B HB aw Haw src Hsrc pred m a vd p bs Hst (o1 (length bs)) (o2 (length bs)))
      as (m1 & cts & E & Hs & Hst2 & Hfr); auto.
    rewrite E. rewrite (proj2 (Nat.eqb_neq _ _) Hnb). rewrite Hs.
    set (m2 := am_headers (o2 (length bs)) m1 cts a (length bs)) in *.
    set (bs' := map (keep pred) bs) in *.
    assert (Ec : concat bs' = keep pred (concat bs)) by apply bs'_concat.
    assert (El : length bs' = length bs) by apply map_length.
    rewrite <- Ec.
    destruct (Nat.ltb_spec (length (concat bs')) (vd / 10)) as [Hlt|Hge].
    - destruct (@repack_run o3 o4 m2 a vd p bs' Hst2 Hlt H3 H4) as (m' & vd' & p' & bs2 & E2 & Hst3 & Ec2 & Hvd & Hp & Hfr2).
      rewrite E2. exists m', vd', p', bs2. rewrite Ec2. repeat split; auto; try apply Hst3.
      + rewrite <- El. exact Hp.
      + intros b Hb. rewrite Hfr2 by (rewrite El; exact Hb). now apply Hfr.
    - exists m2, vd, p, bs'. repeat split; auto; try apply Hst2.
      rewrite El. lia.
  Qed.
  Lemma am_pack_100 pred o1 o2 o3 o4 m a vd p bs : stored B aw src m a vd p bs -> length bs = 100%nat ->
    am_pack B aw pred o1 o2 o3 o4 m a src (length (concat bs)) = None.
  Proof.
    intros Hst Hnb. unfold am_pack. cbv zeta. rewrite (@st_am_nb B aw src m a vd p bs Hst), Hnb.
    destruct (am_packBlocks _ _ _ _ _ _ _ _ _ _) as [[? ?]|]; reflexivity.
  Qed.

  Lemma packs_run ps m a m' vd p bs d' : stored B aw src m a vd p bs ->
    packs B aw a src m (length (concat bs)) ps m' d' ->
    exists vd' p' bs', d' = length (concat bs') /\
      stored B aw src m' a vd' p' bs' /\ concat bs' = fold_left (fun l q => keep q l) ps (concat bs) /\ (vd' <= vd)%nat /\
      (p' (length bs') <= p (length bs))%nat /\
      (forall b, (b < a \/ a + p (length bs) <= b)%nat -> m' b = m b).
  Proof.
    intros Hst Hp. remember (length (concat bs)) as d eqn:Ed. induction Hp as [m d|m d ps m1 d1 q o1 o2 o3 o4 m2 d2 Hp IH H1 H2 H3 H4 E].
    - subst. exists vd, p, bs. repeat split; auto; apply Hst.
    - destruct (IH Hst Ed) as (vd1 & p1 & bs1 & E1 & Hst1 & Ec1 & Hvd1 & Hp1 & Hfr1). subst d1.
      destruct (Nat.eq_dec (length bs1) 100) as [E100|Hn].
      { rewrite (@am_pack_100 q o1 o2 o3 o4 m1 a vd1 p1 bs1 Hst1 E100) in E. discriminate. }
      destruct (@am_pack_run q o1 o2 o3 o4 m1 a vd1 p1 bs1 Hst1 H1 H2 H3 H4 Hn)
        as (m3 & vd2 & p2 & bs2 & E2 & Hst2 & Ec2 & Hvd2 & Hp2 & Hfr2).
      rewrite E in E2. injection E2 as <- ->.
      exists vd2, p2, bs2. split; auto. split; auto. split.
      { rewrite fold_left_app. cbn [fold_left]. now rewrite <- Ec1. }
      split; [lia|]. split; [lia|]. intros b Hb. rewrite Hfr2 by lia. now apply Hfr1.
  Qed.
End AM.
