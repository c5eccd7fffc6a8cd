(* The amortized codec: iterators and get_ith_neighbor. *)
From Verif Require Import Base ListUtil CodecModel CodecSpec CodecProofs CodecList PDModel PDSpec PDProofs
  AMModel AMSpec AMProofs AMWrite AMPack AMRepack.
From Coq Require Import NArith ZArith Lia Sorted Permutation.
Local Open Scope N_scope.

Lemma skipn_cons {A} (l : list A) d : forall i, (i < length l)%nat -> skipn i l = nth i l d :: skipn (S i) l.
Proof.
  induction l as [|b l IH]; intros i Hi; [simpl in Hi; lia|].
  destruct i as [|i]; [reflexivity|]. cbn [skipn nth]. rewrite (IH i) by (simpl in Hi; lia). reflexivity.
Qed.

Section AM.
  Variable B : nat.
  Hypothesis HB : (1 <= B)%nat.
  Variable aw : awty.
  Hypothesis Haw : aw = AEmpty \/ aw = AInt.
  Variable src : N.
  Hypothesis Hsrc : src < two32.
  Notation w := (weights_of aw).
  Notation en := (enc (weights_of aw) src).

  Section Iter.
    Variable m : mem.
    Variable a vd : nat.
    Variable p : nat -> nat.
    Variable bs : list (list edge).
    Hypothesis Hst : stored B aw src m a vd p bs.
    Let nb := length bs.
    Let d := length (concat bs).

    Lemma it_seek_run k : forall i, (i + k = nb)%nat -> concat (skipn i bs) <> [] ->
      exists j, it_seek m a nb d i k = Some j /\ (i <= j < nb)%nat /\ nth j bs [] <> [] /\
        concat (skipn i bs) = concat (skipn j bs) /\ position bs j = position bs i.
    Proof.
      induction k as [|k IH]; intros i Hi Hne.
      - rewrite skipn_all2 in Hne by (unfold nb in Hi; lia). now elim Hne.
      - cbn [it_seek]. assert (Hi' : (i < nb)%nat) by lia.
        unfold nb, d. rewrite (@st_start B HB aw src Hsrc m a vd p bs i Hst Hi').
        rewrite (@st_end B HB aw src Hsrc m a vd p bs i Hst Hi'). rewrite position_S by auto.
        rewrite (skipn_cons bs [] Hi') in *. cbn [concat] in *.
        destruct (nth i bs []) as [|e b] eqn:Eb.
        + cbn [length]. rewrite Nat.add_0_r, Nat.ltb_irrefl. cbn [app] in *.
          destruct (IH (S i)) as (j & E & H1 & H2 & H3 & H4); auto; [lia|].
          exists j. repeat split; auto; try lia. rewrite H4, position_S by auto. rewrite Eb. cbn [length]. lia.
        + cbn [length]. rewrite (proj2 (Nat.ltb_lt _ _)) by lia.
          exists i. repeat split; auto; try lia; [rewrite Eb; discriminate|].
          rewrite (skipn_cons bs [] Hi'), Eb. reflexivity.
    Qed.

    (* the iterator stands on edge (v, x) of block i, with pre read and suf to come *)
    Definition it_at (st : iter_st) (i : nat) (pre : list edge) (v : N) (x : Z) (suf : list edge) : Prop :=
      (i < nb)%nat /\ nth i bs [] = pre ++ (v, x) :: suf /\
      it_chunk st = i /\ it_chunk_degree st = length (nth i bs []) /\ it_edge st = (v, x) /\
      it_in_block st = S (length pre) /\ it_total st = (position bs i + S (length pre))%nat /\
      holds m (it_finger st) (encRest w v suf) /\ okRest w v suf.

    Lemma it_open_run i total : (i < nb)%nat -> nth i bs [] <> [] -> total = S (position bs i) ->
      exists st v x suf, it_open aw m a src nb d i total = Some st /\ it_at st i [] v x suf.
    Proof.
      intros Hi Hne ->. unfold it_open.
      rewrite (@lay_finger B HB src Hsrc m a nb p i ltac:(lia) (st_lay Hst) Hi).
      pose proof (st_cont Hst (i := i) Hi) as Hc. pose proof (@ok_nth aw bs i (st_ok Hst)) as Hok.
      destruct (nth i bs []) as [|[v x] suf] eqn:Eb; [congruence|]. cbn [enc ok] in *.
      destruct Hok as (H1 & H2 & H3).
      apply holds_app in Hc as [Hc1 Hc]. apply holds_app in Hc as [Hc2 Hc3].
      rewrite (eatFirstEdge_reads Hsrc H1 Hc1). rewrite (@am_eW_eat aw Haw). rewrite (@eatWeight_reads w _ _ _ H2 Hc2).
      eexists _, v, x, suf. split; [reflexivity|].
      unfold it_at. cbn [it_chunk it_chunk_degree it_edge it_in_block it_total it_finger length app].
      repeat split; auto; try lia.
      unfold nb, d. rewrite (@st_start B HB aw src Hsrc m a vd p bs i Hst Hi).
      rewrite (@st_end B HB aw src Hsrc m a vd p bs i Hst Hi). rewrite position_S by auto. lia.
    Qed.

    Lemma it_loop_run fuel : forall st i pre v x suf, it_at st i pre v x suf ->
      (length suf + length (concat (skipn (S i) bs)) < fuel)%nat ->
      it_loop aw fuel m a src nb d st = Some ((v, x) :: suf ++ concat (skipn (S i) bs)).
    Proof.
      induction fuel as [|fuel IH]; intros st i pre v x suf Hat Hf; [lia|].
      cbn [it_loop]. destruct Hat as (Hi & Hb & H1 & H2 & H3 & H4 & H5 & H6 & H7).
      assert (Hd : d = (position bs i + length pre + 1 + length suf + length (concat (skipn (S i) bs)))%nat).
      { unfold d. rewrite <- (firstn_skipn i bs) at 1. rewrite concat_app, app_length. fold (position bs i).
        rewrite (skipn_cons bs [] Hi). cbn [concat]. rewrite Hb, !app_length. cbn [length]. lia. }
      rewrite H5, H3. destruct suf as [|[v' x'] suf'].
      - cbn [app length] in *. destruct (concat (skipn (S i) bs)) as [|e0 r] eqn:Er.
        + rewrite (proj2 (Nat.ltb_ge _ _)) by (cbn [length] in *; lia). reflexivity.
        + rewrite (proj2 (Nat.ltb_lt _ _)) by (cbn [length] in *; lia).
          unfold it_next. rewrite H4, H2, Hb, app_length. cbn [length]. rewrite Nat.add_1_r, Nat.eqb_refl, H1.
          destruct (@it_seek_run (nb - S i) (S i)) as (j & Es & Hj & Hnj & Ec & Ep); [lia|rewrite Er; discriminate|].
          rewrite Es. destruct (@it_open_run j (S (it_total st))) as (st' & v' & x' & suf' & Eo & Hat'); auto; [lia| |].
          { rewrite Ep, H5, position_S, Hb, app_length by auto. cbn [length]. lia. }
          rewrite Eo. rewrite (IH st' j [] v' x' suf' Hat').
          * do 2 f_equal. rewrite <- Er, Ec. rewrite (skipn_cons bs [] (i := j)) by (unfold nb in Hj; lia). cbn [concat].
            destruct Hat' as (_ & -> & _). reflexivity.
          * assert (El : (length (concat (skipn j bs)) = S (length r))%nat) by (rewrite <- Ec, Er; reflexivity).
            rewrite (skipn_cons bs [] (i := j)) in El by (unfold nb in Hj; lia). cbn [concat] in El.
            destruct Hat' as (_ & Eb' & _). rewrite Eb', !app_length in El. cbn [length app] in *. lia.
      - rewrite (proj2 (Nat.ltb_lt _ _)) by (cbn [length] in *; lia).
        unfold it_next. rewrite H4, H2, Hb, app_length. cbn [length].
        rewrite (proj2 (Nat.eqb_neq _ _)) by lia.
        cbn [encRest okRest] in *. destruct H7 as (G1 & G2 & G3 & G4).
        apply holds_app in H6 as [Hc1 Hc]. apply holds_app in Hc as [Hc2 Hc3].
        rewrite (eatEdge_gap G1 G2 Hc1). rewrite (@am_eW_eat aw Haw). rewrite (@eatWeight_reads w _ _ _ G3 Hc2).
        rewrite H3. cbn [fst]. rewrite add32 by auto.
        rewrite (IH _ i (pre ++ [(v, x)]) v' x' suf').
        + reflexivity.
        + unfold it_at. cbn [it_chunk it_chunk_degree it_edge it_in_block it_total it_finger].
          rewrite app_length. cbn [length]. rewrite <- app_assoc. cbn [app].
          repeat split; auto; try lia.
          rewrite Hb, app_length. cbn [length]. lia.
        + cbn [length] in Hf. lia.
    Qed.
    Lemma am_iter_run : am_iter B aw m a src d = Some (concat bs).
    Proof.
      assert (HL : concat bs = [] \/ exists e0 L0, concat bs = e0 :: L0) by (clear; destruct (concat bs); eauto).
      unfold am_iter. destruct HL as [EL|(e0 & L0 & EL)].
      { unfold d. rewrite EL. reflexivity. }
      assert (Hd : d = S (length L0)) by (unfold d; rewrite EL; reflexivity). rewrite Hd at 1.
      rewrite (@st_am_nb B aw src m a vd p bs Hst). fold nb. unfold it_first.
      destruct (@it_seek_run nb 0) as (j & Es & Hj & Hnj & Ec & Ep); [lia|cbn [skipn]; rewrite EL; discriminate|].
      rewrite Es. destruct (@it_open_run j 1) as (st & v & x & suf & Eo & Hat); [lia|exact Hnj| |].
      { rewrite Ep, position_0. reflexivity. }
      rewrite Eo. cbn [skipn] in Ec.
      assert (E : concat bs = (v, x) :: suf ++ concat (skipn (S j) bs)).
      { rewrite Ec. rewrite (skipn_cons bs [] (i := j)) by (unfold nb in Hj; lia). cbn [concat].
        destruct Hat as (_ & -> & _). reflexivity. }
      rewrite (@it_loop_run d st j [] v x suf Hat).
      - now rewrite E.
      - unfold d. rewrite E. cbn [length]. rewrite app_length. lia.
    Qed.

    (* get_ith_neighbor *)
    Lemma find_block_run x k : forall i, (i + k = nb)%nat -> (position bs i <= x < d)%nat ->
      exists j, am_find_block m a nb d x i k = Some j /\ (j < nb)%nat /\ (position bs j <= x < position bs (S j))%nat.
    Proof.
      induction k as [|k IH]; intros i Hi Hx.
      - exfalso. unfold d in Hx. replace i with (length bs) in Hx by (unfold nb in Hi; lia). rewrite position_end in Hx. lia.
      - cbn [am_find_block]. assert (Hi' : (i < nb)%nat) by lia.
        unfold nb, d. rewrite (@st_end B HB aw src Hsrc m a vd p bs i Hst Hi').
        destruct (Nat.ltb_spec x (position bs (S i))) as [H|H].
        + exists i. repeat split; auto; lia.
        + apply IH; lia.
    Qed.
    Lemma skip_run : forall suf m0 f v x k, (k <= length suf)%nat -> holds m0 f (encRest w v suf) -> okRest w v suf ->
      am_skip aw m0 f v x k = Some (nth k ((v, x) :: suf) (0, 0%Z)).
    Proof.
      induction suf as [|[v' x'] suf IH]; intros m0 f v x k Hk Hh Hok; cbn [length] in Hk.
      - replace k with 0%nat by lia. reflexivity.
      - destruct k as [|k]; [reflexivity|]. cbn [am_skip]. cbn [encRest okRest] in *.
        destruct Hok as (G1 & G2 & G3 & G4).
        apply holds_app in Hh as [Hc1 Hc]. apply holds_app in Hc as [Hc2 Hc3].
        rewrite (eatEdge_gap G1 G2 Hc1). rewrite (@am_eW_eat aw Haw). rewrite (@eatWeight_reads w _ _ _ G3 Hc2).
        rewrite add32 by auto. rewrite IH by (auto; lia). reflexivity.
    Qed.
    Lemma get_ith_run i : (i < d)%nat ->
      exists b, (b < nb)%nat /\ (position bs b <= i < position bs (S b))%nat /\
        am_get_ith B aw m a src d i
        = Some (nth (if (i =? position bs b)%nat then i else i - 1)%nat (concat bs) (0, 0%Z)).
    Proof.
      intros Hi. unfold am_get_ith. rewrite (@st_am_nb B aw src m a vd p bs Hst). fold nb.
      destruct (@find_block_run i nb 0) as (b & E & Hb & Hp); [lia|rewrite position_0; lia|].
      exists b. split; auto. split; auto. rewrite E.
      unfold nb. rewrite (@st_start B HB aw src Hsrc m a vd p bs b Hst Hb). fold nb.
      rewrite (@lay_finger B HB src Hsrc m a nb p b ltac:(lia) (st_lay Hst) Hb).
      rewrite position_S in Hp by auto.
      pose proof (st_cont Hst (i := b) Hb) as Hc. pose proof (@ok_nth aw bs b (st_ok Hst)) as Hok.
      pose proof (@position_nth _ bs ((0, 0%Z) : edge) b) as Hn.
      destruct (nth b bs []) as [|[v x] suf] eqn:Eb; [cbn [length] in Hp; lia|]. cbn [enc ok] in *.
      destruct Hok as (H1 & H2 & H3).
      apply holds_app in Hc as [Hc1 Hc]. apply holds_app in Hc as [Hc2 Hc3].
      rewrite (eatFirstEdge_reads Hsrc H1 Hc1). rewrite (@am_eW_eat aw Haw). rewrite (@eatWeight_reads w _ _ _ H2 Hc2).
      destruct (Nat.eqb_spec i (position bs b)) as [->|Hne].
      - f_equal. rewrite <- (Nat.add_0_r (position bs b)). rewrite Hn by (auto; cbn [length]; lia). reflexivity.
      - cbn [length] in *. rewrite (@skip_run suf m _ v x (i - (position bs b + 1))) by (auto; lia). f_equal.
        rewrite <- Hn by (auto; cbn [length]; lia). f_equal. lia.
    Qed.
  End Iter.

  (* -- simple_iter on a list as encoded ---------------------------------------- *)
  Section Simple.
    Variable m : mem.
    Variable a : nat.
    Variable L : list edge.
    Hypothesis HL : (0 < length L)%nat.
    Hypothesis Hok : ok w L.
    Hypothesis Hst : stored B aw src m a (length L) (place B aw src L) (blocks B L).
    Notation pl := (place B aw src L).

    Lemma simple_cont i : (i < nblocks B (length L))%nat -> holds m (a + pl i + 4) (en (block B i L)).
    Proof.
      intros Hi. rewrite <- (@blocks_nth B L i Hi). apply (st_cont Hst). rewrite blocks_length. exact Hi.
    Qed.
    Lemma simpleRest_run n : forall r finger ngh proc i,
      (length r + length (skipn (S i * B) L) = n)%nat ->
      (i < nblocks B (length L))%nat ->
      (proc + length r = length (block B i L))%nat ->
      holds m finger (encRest w ngh r) -> okRest w ngh r ->
      (finger + length (encRest w ngh r) = a + pl (S i))%nat ->
      am_simpleRest B aw m src finger ngh proc n = Some (r ++ skipn (S i * B) L).
    Proof.
      induction n as [|n IH]; intros r finger ngh proc i Hn Hi Hp Hh Hr Hf.
      - destruct r; [|cbn [length] in Hn; lia]. destruct (skipn (S i * B) L) eqn:E; [reflexivity|]. cbn [length] in Hn; lia.
      - cbn [am_simpleRest]. pose proof (@block_length B HB edge i L) as Hbl. unfold pd_count in Hbl.
        rewrite skipn_length in Hn.
        destruct (Nat.eqb_spec proc B) as [->|Hpb].
        + assert (Er : r = []) by (destruct r; [reflexivity|cbn [length] in *; lia]). subst r. cbn [length app encRest] in *.
          assert (Hi' : (S i < nblocks B (length L))%nat) by (apply (nblocks_ge HB); cbn [Nat.mul] in *; lia).
          pose proof (@block_nonempty B HB edge (S i) L HL Hi') as Hne.
          pose proof (simple_cont Hi') as Hc.
          assert (Hokb : ok w (block B (S i) L)) by (apply ok_first, ok_skip; auto).
          assert (Hpl : pl (S (S i)) = (pl (S i) + 4 + length (en (block B (S i) L)))%nat) by reflexivity.
          assert (Esk : skipn (S i * B) L = block B (S i) L ++ skipn (S (S i) * B) L).
          { unfold block. replace (S (S i) * B)%nat with (S i * B + B)%nat by (cbn [Nat.mul]; lia).
            rewrite <- skipn_skipn'. symmetry. apply firstn_skipn. }
          rewrite Esk. rewrite Nat.add_0_r in Hf. rewrite Hf.
          destruct (block B (S i) L) as [|[v x] r'] eqn:Eb; [congruence|]. cbn [enc ok] in *.
          destruct Hokb as (H1 & H2 & H3).
          apply holds_app in Hc as [Hc1 Hc]. apply holds_app in Hc as [Hc2 Hc3].
          rewrite (eatFirstEdge_reads Hsrc H1 Hc1). rewrite (@am_eW_eat aw Haw). rewrite (@eatWeight_reads w _ _ _ H2 Hc2).
          rewrite (IH r' _ v 1%nat (S i)); auto.
          * pose proof (skipn_length (S i * B) L) as E1. rewrite Esk, app_length in E1. cbn [length] in E1. lia.
          * rewrite Eb. reflexivity.
          * rewrite Hpl, !app_length. lia.
        + destruct r as [|[v x] r'].
          { exfalso. cbn [length] in *. cbn [Nat.mul] in Hn. lia. }
          cbn [encRest okRest] in *. destruct Hr as (G1 & G2 & G3 & G4).
          apply holds_app in Hh as [Hc1 Hc]. apply holds_app in Hc as [Hc2 Hc3].
          rewrite (eatEdge_gap G1 G2 Hc1). rewrite add32 by auto.
          rewrite (@am_eW_eat aw Haw). rewrite (@eatWeight_reads w _ _ _ G3 Hc2).
          rewrite (IH r' _ v (S proc) i); auto.
          * rewrite skipn_length. cbn [length] in *. lia.
          * cbn [length] in *. lia.
          * rewrite !app_length in Hf. lia.
    Qed.
    Lemma simple_iter_run : am_simple_iter B aw m a src (length L) = Some L.
    Proof.
      assert (H0 : (0 < nblocks B (length L))%nat) by (unfold nblocks; lia).
      pose proof (simple_cont H0) as Hc. pose proof (@block_nonempty B HB edge 0 L HL H0) as Hne.
      assert (Hokb : ok w (block B 0 L)) by (apply ok_first, ok_skip; auto).
      assert (Hpl : pl 1 = (pl 0 + 4 + length (en (block B 0 L)))%nat) by reflexivity.
      assert (Esk : L = block B 0 L ++ skipn (1 * B) L).
      { unfold block. cbn [Nat.mul skipn]. rewrite Nat.add_0_r. symmetry. apply firstn_skipn. }
      unfold am_simple_iter. destruct (length L) as [|n] eqn:En; [lia|]. rewrite <- En in *.
      replace (a + 4 * (nblocks B (length L) - 1) + 8)%nat with (a + pl 0 + 4)%nat by (cbn [place]; lia).
      assert (El : (length L = length (block B 0 L) + length (skipn (1 * B) L))%nat) by (rewrite Esk at 1; apply app_length).
      destruct (block B 0 L) as [|[v x] r'] eqn:Eb; [congruence|]. cbn [enc ok] in *.
      destruct Hokb as (H1 & H2 & H3).
      apply holds_app in Hc as [Hc1 Hc]. apply holds_app in Hc as [Hc2 Hc3].
      rewrite (eatFirstEdge_reads Hsrc H1 Hc1). rewrite (@am_eW_eat aw Haw). rewrite (@eatWeight_reads w _ _ _ H2 Hc2).
      rewrite (@simpleRest_run n r' _ v 1%nat 0%nat); auto.
      - f_equal. rewrite Esk at 2. reflexivity.
      - cbn [length] in El. lia.
      - rewrite Eb. reflexivity.
      - rewrite Hpl, !app_length. lia.
    Qed.
  End Simple.
End AM.
