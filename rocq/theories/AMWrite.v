(* The amortized codec: encoding a list, and writing the blocks in any order. *)
From Verif Require Import Base ListUtil CodecModel CodecSpec CodecProofs CodecList PDModel PDSpec PDProofs
  AMModel AMSpec AMProofs.
From Coq Require Import NArith ZArith Lia Sorted Permutation.
Local Open Scope N_scope.

Section AM.
  Variable B : nat.
  Hypothesis HB : (1 <= B)%nat.
  Variable aw : awty.
  Hypothesis Haw : aw = AEmpty \/ aw = AInt.
  Variable src : N.
  Hypothesis Hsrc : src < two32.
  Notation w := (weights_of aw).
  Notation en := (enc (weights_of aw) src).

  Definition blocks (L : list edge) : list (list edge) :=
    map (fun i => block B i L) (seq 0 (nblocks B (length L))).
  (* where block i goes when the blocks are written one after the other *)
  Fixpoint place (L : list edge) (i : nat) : nat :=
    match i with
    | O => (4 * nblocks B (length L))%nat
    | S i => (place L i + 4 + length (en (block B i L)))%nat
    end.

  Lemma blocks_length L : length (blocks L) = nblocks B (length L).
  Proof. unfold blocks. now rewrite map_length, seq_length. Qed.
  Lemma blocks_nth L i : (i < nblocks B (length L))%nat -> nth i (blocks L) [] = block B i L.
  Proof. intros H. unfold blocks. apply (@nth_map_seq _ (fun i => block B i L)). auto. Qed.
  Lemma blocks_concat L : concat (blocks L) = L.
  Proof. apply concat_blocks; auto. Qed.
  Lemma blocks_position L i : (0 < length L)%nat -> (i < nblocks B (length L))%nat -> position (blocks L) i = (i * B)%nat.
  Proof.
    intros HL Hi. unfold position, blocks. rewrite firstn_map.
    replace (firstn i (seq 0 (nblocks B (length L)))) with (seq 0 i).
    - rewrite (concat_blocks_k HB), firstn_length. pose proof (@nblocks_lt B HB (length L) i HL Hi). lia.
    - replace (nblocks B (length L)) with (i + (nblocks B (length L) - i))%nat by lia.
      rewrite seq_app, firstn_app, seq_length, Nat.sub_diag, firstn_all2; [cbn; now rewrite app_nil_r|].
      rewrite seq_length. lia.
  Qed.
  Lemma place_lay m a L : (forall i, (S i < nblocks B (length L))%nat -> uint_at m (a + 4 + 4 * i) = place L (S i)) ->
    lay m a (nblocks B (length L)) (place L).
  Proof. intros H. split; auto. intros i Hi. cbn [place]. lia. Qed.
  Lemma place_mono L i j : (i <= j)%nat -> (place L i <= place L j)%nat.
  Proof. intros H. induction H as [|j H IH]; auto. cbn [place]. lia. Qed.
  Lemma place_lt L i j : (i < j)%nat -> (place L i + 4 + length (en (block B i L)) <= place L j)%nat.
  Proof. intros H. pose proof (@place_mono L (S i) j H). cbn [place] in *. lia. Qed.
  Lemma place_ge L i : (4 * nblocks B (length L) <= place L i)%nat.
  Proof. pose proof (@place_mono L 0 i ltac:(lia)). cbn [place] in *. lia. Qed.
  Lemma place_encB L i : place L i = (4 * nblocks B (length L) + 4 * i + length (encB B w src i L))%nat.
  Proof.
    induction i as [|i IH]; [cbn; lia|]. cbn [place]. rewrite encB_S, app_length, IH. lia.
  Qed.
  Lemma place_size L : ok w L -> (0 < length L)%nat -> (place L (nblocks B (length L)) <= 18 * length L)%nat.
  Proof.
    intros H HL. rewrite place_encB. pose proof (@encB_len B HB w src Hsrc (nblocks B (length L)) L H).
    pose proof (@nblocks_le B HB src Hsrc (length L) HL). lia.
  Qed.

  Lemma stored_fresh m a L : (0 < length L)%nat -> ok w L -> 18 * N.of_nat (length L) < two32 ->
    uint_at m a = length L ->
    (forall i, (S i < nblocks B (length L))%nat -> uint_at m (a + 4 + 4 * i) = place L (S i)) ->
    (forall i, (i < nblocks B (length L))%nat -> uint_at m (a + place L i) = (i * B)%nat) ->
    (forall i, (i < nblocks B (length L))%nat -> holds m (a + place L i + 4) (en (block B i L))) ->
    stored B aw src m a (length L) (place L) (blocks L).
  Proof.
    intros HL Hok Hsz Hvd Ht Hh Hc. split; auto; rewrite ?blocks_length, ?blocks_concat; auto.
    - now apply place_lay.
    - intros i Hi. rewrite blocks_position by auto. auto.
    - intros i Hi. rewrite blocks_nth by auto. auto.
    - intros i Hi. rewrite blocks_nth by auto. cbn [place]. lia.
    - apply Forall_forall. intros b Hb. unfold blocks in Hb. apply in_map_iff in Hb as (i & <- & _).
      rewrite (block_length HB). unfold pd_count. lia.
  Qed.

  (* -- the encoder ---------------------------------------------------------- *)
  Lemma compressBlocks_run a L k : forall m i,
    (0 < length L)%nat -> ok w L -> 18 * N.of_nat (length L) < two32 ->
    (i + k = nblocks B (length L))%nat ->
    let nb := nblocks B (length L) in
    exists m', am_compressBlocks B aw k m a (a + place L i) i src (skipn (i * B) L) = Some (m', (a + place L nb)%nat) /\
      (forall b, (b < a + 4 + 4 * (i - 1) \/ a + 4 * nb <= b < a + place L i \/ a + place L nb <= b)%nat -> m' b = m b) /\
      (forall j, (i <= j < nb)%nat ->
         (forall j', j = S j' -> uint_at m' (a + 4 + 4 * j') = place L j) /\
         uint_at m' (a + place L j) = (j * B)%nat /\
         holds m' (a + place L j + 4) (en (block B j L))).
  Proof.
    induction k as [|k IH]; intros m i HL Hok Hsz Hik nb.
    - exists m. cbn [am_compressBlocks]. replace i with nb by (unfold nb; lia). split; [reflexivity|].
      split; [auto|]. intros. lia.
    - cbn [am_compressBlocks]. cbv zeta.
      assert (Hp : forall j, (j <= nb)%nat -> (place L j <= 18 * length L)%nat).
      { intros j Hj. etransitivity; [apply place_mono, Hj|]. now apply place_size. }
      assert (Hi : (i < nb)%nat) by (unfold nb; lia).
      pose proof (@place_ge L i) as Hge. fold nb in Hge.
      pose proof (@nblocks_lt B HB (length L) i HL Hi) as HiB.
      replace (a + place L i - a)%nat with (place L i) by lia.
      set (m1 := match i with O => m | S i' => store32 m (a + 4 + 4 * i') (N.of_nat (place L i) mod two32) end).
      set (m2 := store32 m1 (a + place L i) (N.of_nat (i * B) mod two32)).
      rewrite am_wB by (auto; apply ok_first, ok_skip; auto).
      fold (block B i L). set (c := en (block B i L)) in *.
      replace (a + place L i + 4 + length c)%nat with (a + place L (S i))%nat by (cbn [place]; fold c; lia).
      rewrite skipn_skipn'. replace (i * B + B)%nat with (S i * B)%nat by (cbn; lia).
      destruct (IH (wr m2 (a + place L i + 4) c) (S i)) as (m' & E & Hfr & Hb); auto; [fold nb; lia|].
      fold nb in E, Hfr, Hb. exists m'. split; [exact E|].
      assert (Hlt : (place L i + 4 + length c <= place L (S i))%nat) by (cbn [place]; fold c; lia).
      pose proof (@place_mono L (S i) nb ltac:(lia)) as Hmono.
      split.
      + intros b Hb'. rewrite Hfr by lia. rewrite wr_out by lia. unfold m2. rewrite store32_out by lia.
        unfold m1. destruct i as [|i']; auto. apply store32_out. lia.
      + intros j Hj. destruct (Nat.eq_dec j i) as [->|Hji]; [|apply Hb; lia].
        split; [|split].
        * intros j' ->. rewrite (@uint_at_store m (a + 4 + 4 * j') (N.of_nat (place L (S j')) mod two32)).
          -- rewrite N.mod_small; [lia|]. specialize (Hp (S j') ltac:(lia)). lia.
          -- apply N.mod_lt; discriminate.
          -- intros b Hb'. rewrite Hfr by lia. rewrite wr_out by lia. unfold m2. rewrite store32_out by lia. reflexivity.
        * rewrite (@uint_at_store m1 (a + place L i) (N.of_nat (i * B) mod two32)).
          -- rewrite N.mod_small; [lia|]. lia.
          -- apply N.mod_lt; discriminate.
          -- intros b Hb'. rewrite Hfr by lia. rewrite wr_out by lia. reflexivity.
        * eapply holds_ext; [|apply (holds_wr c)]. intros b Hb'. apply Hfr. fold c in Hb'. lia.
  Qed.

  Lemma compress_run m a L : ok w L -> 18 * N.of_nat (length L) < two32 ->
    exists m' e, am_compress B aw m a src L = Some (m', e) /\ (a <= e)%nat /\
      (forall b, (b < a \/ e <= b)%nat -> m' b = m b) /\
      (L <> [] -> e = (a + place L (nblocks B (length L)))%nat /\
         forall m2, (forall b, (a <= b < e)%nat -> m2 b = m' b) -> stored B aw src m2 a (length L) (place L) (blocks L)).
  Proof.
    intros Hok Hsz. destruct L as [|e0 L0] eqn:EL.
    { exists m, a. simpl. repeat split; auto; congruence. }
    rewrite <- EL in *. assert (HL : (0 < length L)%nat) by (subst; simpl; lia).
    unfold am_compress. destruct L as [|e1 L1]; [discriminate|]. clear EL e0 L0. set (L := e1 :: L1) in *.
    cbv zeta. set (nb := nblocks B (length L)).
    assert (Hnb : (1 <= nb)%nat) by (unfold nb, nblocks; lia).
    replace (a + 4 + 4 * (nb - 1))%nat with (a + place L 0)%nat by (cbn [place]; fold nb; lia).
    set (m0 := store32 m a (N.of_nat (length L) mod two32)).
    destruct (@compressBlocks_run a L nb m0 0 HL Hok Hsz eq_refl) as (m' & E & Hfr & Hb). fold nb in E, Hfr, Hb.
    cbn [Nat.mul skipn] in E.
    pose proof (@place_ge L nb) as Hge. fold nb in Hge.
    exists m', (a + place L nb)%nat. split; [exact E|]. split; [lia|]. split.
    { intros b Hb'. rewrite Hfr by lia. unfold m0. apply store32_out. lia. }
    intros _. split; [reflexivity|]. intros m2 H2.
    assert (G : forall x, (a <= x)%nat -> (x + 4 <= a + place L nb)%nat -> uint_at m2 x = uint_at m' x).
    { intros x Hx1 Hx2. apply uint_at_ext. intros b Hb'. apply H2. lia. }
    apply stored_fresh; auto; fold nb.
    - rewrite G by lia. rewrite (@uint_at_store m a (N.of_nat (length L) mod two32)).
      + rewrite N.mod_small; lia.
      + apply N.mod_lt; discriminate.
      + intros b Hb'. apply Hfr. lia.
    - intros i Hi. rewrite G by lia. destruct (Hb (S i)) as (H1 & _); [lia|]. now apply H1.
    - intros i Hi. pose proof (@place_lt L i nb Hi). rewrite G by lia.
      destruct (Hb i) as (_ & H1 & _); [lia|]. exact H1.
    - intros i Hi. pose proof (@place_lt L i nb Hi).
      destruct (Hb i) as (_ & _ & H1); [lia|]. eapply holds_ext; [|exact H1]. intros b Hb'. apply H2. lia.
  Qed.

  (* -- writing new blocks, in any order --------------------------------------- *)
  Section Write.
    Variable L : list edge.
    Variable a : nat.
    Variable U : nat -> edge.
    Variable offs : nat -> nat.
    Let nb := nblocks B (length L).
    Hypothesis HL : (0 < length L)%nat.
    Hypothesis Hok : ok w L.
    Hypothesis Hsz : 18 * N.of_nat (length L) < two32.
    Hypothesis HU : forall i, (i < nb)%nat -> am_newBlock B U (length L) i = block B i L.
    Hypothesis Hoffs : forall i, (i <= nb)%nat -> (4 * nb + scan offs i)%nat = place L i.

    Definition touched (i b : nat) : Prop :=
      (exists i', i = S i' /\ (a + 4 + 4 * i' <= b < a + 4 + 4 * i' + 4)%nat) \/
      (a + place L i <= b < a + place L (S i))%nat.
    Definition written (m : mem) (i : nat) : Prop :=
      (forall i', i = S i' -> uint_at m (a + 4 + 4 * i') = place L i) /\
      uint_at m (a + place L i) = (i * B)%nat /\
      holds m (a + place L i + 4) (en (block B i L)).

    Lemma touched_disj i j b : (i < nb)%nat -> (j < nb)%nat -> i <> j -> touched i b -> touched j b -> False.
    Proof.
      intros Hi Hj Hij Hti Htj.
      pose proof (@place_ge L i) as G1. pose proof (@place_ge L j) as G2. fold nb in G1, G2.
      assert (G3 : (place L (S i) <= place L j \/ place L (S j) <= place L i)%nat).
      { destruct (Nat.lt_ge_cases i j); [left|right]; apply place_mono; lia. }
      destruct Hti as [(i' & -> & H1)|H1]; destruct Htj as [(j' & -> & H2)|H2]; lia.
    Qed.
    Lemma written_ext m m' i : (forall b, touched i b -> m' b = m b) -> (i < nb)%nat -> written m i -> written m' i.
    Proof.
      intros He Hi (H1 & H2 & H3). split; [|split].
      - intros i' ->. rewrite <- (H1 i' eq_refl). apply uint_at_ext. intros b Hb. apply He. left. eauto.
      - rewrite <- H2. apply uint_at_ext. intros b Hb. apply He. right. cbn [place]. lia.
      - eapply holds_ext; [|exact H3]. intros b Hb. apply He. right. cbn [place]. lia.
    Qed.

    Lemma writeNew_run m i : (i < nb)%nat ->
      exists m', am_writeNew B aw U offs m a src nb (length L) i = Some m' /\
        (forall b, ~ touched i b -> m' b = m b) /\ written m' i.
    Proof.
      intros Hi. unfold am_writeNew.
      assert (Hp : (place L i <= 18 * length L)%nat).
      { etransitivity; [apply (@place_mono L i nb); lia|]. unfold nb. now apply place_size. }
      pose proof (@place_ge L i) as Hge. fold nb in Hge.
      pose proof (@nblocks_lt B HB (length L) i HL Hi) as HiB.
      pose proof (Hoffs (i := i) ltac:(lia)) as Ho.
      rewrite (N.mod_small (N.of_nat (scan offs i))) by lia. rewrite Nat2N.id.
      replace (a + 4 * (nb - 1) + 4 + scan offs i)%nat with (a + place L i)%nat by lia.
      replace (a + place L i - a)%nat with (place L i) by lia. cbv zeta.
      set (m1 := match i with O => m | S i' => store32 m (a + 4 + 4 * i') (N.of_nat (place L i) mod two32) end).
      set (m2 := store32 m1 (a + place L i) (N.of_nat (i * B) mod two32)).
      rewrite HU by auto. rewrite am_wB by (auto; apply ok_first, ok_skip; auto).
      set (c := en (block B i L)) in *.
      eexists. split; [reflexivity|].
      assert (Hpl : place L (S i) = (place L i + 4 + length c)%nat) by reflexivity.
      split; [|split; [|split]].
      - intros b Hb. unfold touched in Hb. rewrite wr_out by (destruct (Nat.lt_ge_cases b (a + place L i + 4)); [auto|right];
          destruct (Nat.lt_ge_cases b (a + place L (S i))); [exfalso; apply Hb; right; lia|lia]).
        unfold m2. rewrite store32_out.
        + unfold m1. destruct i as [|i']; auto. apply store32_out.
          destruct (Nat.lt_ge_cases b (a + 4 + 4 * i')); [auto|right].
          destruct (Nat.lt_ge_cases b (a + 4 + 4 * i' + 4)); auto. exfalso. apply Hb. left. exists i'. lia.
        + destruct (Nat.lt_ge_cases b (a + place L i)); [auto|right].
          destruct (Nat.lt_ge_cases b (a + place L i + 4)); auto. exfalso. apply Hb. right. lia.
      - intros i' ->. rewrite (@uint_at_store m (a + 4 + 4 * i') (N.of_nat (place L (S i')) mod two32)).
        + rewrite N.mod_small; [lia|]. lia.
        + apply N.mod_lt; discriminate.
        + intros b Hb. rewrite wr_out by lia. unfold m2. rewrite store32_out by lia. reflexivity.
      - rewrite (@uint_at_store m1 (a + place L i) (N.of_nat (i * B) mod two32)).
        + rewrite N.mod_small; lia.
        + apply N.mod_lt; discriminate.
        + intros b Hb. rewrite wr_out by lia. reflexivity.
      - apply holds_wr.
    Qed.

    Lemma writeAll_run ord : forall m, NoDup ord -> (forall i, In i ord -> (i < nb)%nat) ->
      exists m', am_writeAll B aw ord U offs m a src nb (length L) = Some m' /\
        (forall b, (forall i, In i ord -> ~ touched i b) -> m' b = m b) /\
        (forall i, In i ord -> written m' i).
    Proof.
      induction ord as [|i ord IH]; intros m Hnd Hlt.
      - exists m. split; [reflexivity|]. split; [auto|intros ? []].
      - cbn [am_writeAll]. inversion Hnd as [|x y Hni Hnd']; subst.
        destruct (@writeNew_run m i) as (m1 & E & Hfr & Hw); [apply Hlt; now left|].
        rewrite E. destruct (IH m1 Hnd') as (m' & E' & Hfr' & Hw'); [intros; apply Hlt; now right|].
        exists m'. split; [exact E'|]. split.
        + intros b Hb. rewrite Hfr' by (intros; apply Hb; now right). apply Hfr. apply Hb. now left.
        + intros j [<-|Hj]; [|now apply Hw'].
          apply written_ext with m1; auto; [|apply Hlt; now left].
          intros b Hb. apply Hfr'. intros j Hj Htj. apply (@touched_disj i j b); auto.
          * apply Hlt; now left.
          * apply Hlt; now right.
          * intros ->. contradiction.
    Qed.

    Lemma rewrite_run ord m : Permutation ord (seq 0 nb) ->
      exists m', am_writeAll B aw ord U offs (store32 m a (N.of_nat (length L) mod two32)) a src nb (length L) = Some m' /\
        (forall b, (b < a \/ a + place L nb <= b)%nat -> m' b = m b) /\
        stored B aw src m' a (length L) (place L) (blocks L).
    Proof.
      intros Hp.
      assert (Hin : forall i, In i ord <-> (i < nb)%nat).
      { intros i. rewrite (Permutation_in' (x := i) eq_refl Hp), in_seq. lia. }
      assert (Hnd : NoDup ord) by (eapply Permutation_NoDup; [apply Permutation_sym, Hp|apply seq_NoDup]).
      set (m0 := store32 m a (N.of_nat (length L) mod two32)).
      destruct (@writeAll_run ord m0 Hnd) as (m' & E & Hfr & Hw); [intros; now apply Hin|].
      assert (Hnb : (1 <= nb)%nat) by (unfold nb, nblocks; lia).
      pose proof (@place_ge L nb) as Hge. fold nb in Hge.
      assert (Ht : forall i b, In i ord -> touched i b -> (a + 4 <= b < a + place L nb)%nat).
      { intros i b Hi Hb. apply Hin in Hi. pose proof (@place_mono L (S i) nb ltac:(lia)) as Hm.
        pose proof (@place_ge L i) as Hg. fold nb in Hg.
        destruct Hb as [(i' & -> & H1)|H1]; lia. }
      exists m'. split; [exact E|]. split.
      - intros b Hb. rewrite Hfr.
        + apply store32_out. lia.
        + intros i Hi Hti. apply Ht in Hti; auto. lia.
      - apply stored_fresh; auto; fold nb.
        + rewrite (@uint_at_store m a (N.of_nat (length L) mod two32)).
          * rewrite N.mod_small; lia.
          * apply N.mod_lt; discriminate.
          * intros b Hb. apply Hfr. intros i Hi Hti. apply Ht in Hti; auto. lia.
        + intros i Hi. destruct (Hw (S i)) as (H1 & _); [now apply Hin|]. now apply H1.
        + intros i Hi. destruct (Hw i) as (_ & H1 & _); [now apply Hin|]. auto.
        + intros i Hi. destruct (Hw i) as (_ & _ & H1); [now apply Hin|]. auto.
    Qed.
  End Write.
End AM.
