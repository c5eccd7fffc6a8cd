(* The amortized codec: pack and repack. *)
From Verif Require Import Base ListUtil CodecModel CodecSpec CodecProofs CodecList PDModel PDSpec PDProofs
  AMModel AMSpec AMProofs AMWrite.
From Coq Require Import NArith ZArith Lia Sorted Permutation.
Local Open Scope N_scope.

Section AM.
  Variable B : nat.
  Hypothesis HB : (1 <= B)%nat.
  Variable aw : awty.
  Hypothesis Haw : aw = AEmpty \/ aw = AInt.
  Variable src : N.
  Hypothesis Hsrc : src < two32.
  Notation w := (weights_of aw).
  Notation en := (enc (weights_of aw) src).

  Lemma walk_gen t m a nb p d i b s : lay m a nb p -> (i < nb)%nat ->
    uint_at m (a + p i) = s -> am_end m a nb d i = (s + length b)%nat ->
    holds m (a + p i + 4) (en b) -> ok w b ->
    am_walk aw t m a src nb d i = Some (upto t s b, all_true t s b).
  Proof.
    intros Hl Hi Hs He Hh Hok. unfold am_walk, am_start. rewrite (@lay_finger B HB src Hsrc m a nb p i ltac:(lia) Hl Hi), Hs, He.
    destruct b as [|e0 b'] eqn:Eb.
    - cbn [length]. rewrite Nat.add_0_r, Nat.ltb_irrefl. reflexivity.
    - rewrite <- Eb in *. assert (Hlen : (0 < length b)%nat) by (subst; simpl; lia).
      rewrite (proj2 (Nat.ltb_lt _ _)) by lia.
      replace (s + length b - s)%nat with (length b) by lia.
      apply (walkBlock_run w); auto.
      + intros. now apply am_eW_eat.
      + subst. discriminate.
  Qed.
  Lemma read_gen m a nb p d i b s : lay m a nb p -> (i < nb)%nat ->
    uint_at m (a + p i) = s -> am_end m a nb d i = (s + length b)%nat ->
    holds m (a + p i + 4) (en b) -> ok w b ->
    am_read aw m a src nb d i = Some b.
  Proof.
    intros. unfold am_read. erewrite walk_gen; eauto. now rewrite upto_true_edges.
  Qed.

  Section Pack.
    Variable pred : N -> Z -> bool.
    Variable m : mem.
    Variable a vd : nat.
    Variable p : nat -> nat.
    Variable bs : list (list edge).
    Hypothesis Hst : stored B aw src m a vd p bs.
    Let nb := length bs.
    Let d := length (concat bs).
    Let bs' := map (keep pred) bs.

    Definition region (i b : nat) : Prop := (a + p i + 4 <= b < a + p (S i))%nat.
    (* m' differs from m at most in the contents of blocks that are done *)
    Definition close (done : list nat) (m' : mem) : Prop :=
      forall b, (forall i, In i done -> ~ region i b) -> m' b = m b.

    Lemma region_disj i j b : (i < nb)%nat -> (j < nb)%nat -> i <> j -> region i b -> region j b -> False.
    Proof.
      unfold region. intros Hi Hj Hij H1 H2. pose proof (st_lay Hst) as Hl. fold nb in Hl.
      destruct (Nat.lt_ge_cases i j).
      - pose proof (@lay_mono B HB src Hsrc m a nb p (S i) j Hl ltac:(lia)). lia.
      - pose proof (@lay_mono B HB src Hsrc m a nb p (S j) i Hl ltac:(lia)). lia.
    Qed.
    Lemma region_hdr i j b : (i < nb)%nat -> (j < nb)%nat -> (a + p j <= b < a + p j + 4)%nat -> ~ region i b.
    Proof.
      unfold region. intros Hi Hj Hb H2. pose proof (st_lay Hst) as Hl. fold nb in Hl.
      destruct (Nat.lt_ge_cases i j).
      - pose proof (@lay_mono B HB src Hsrc m a nb p (S i) j Hl ltac:(lia)). lia.
      - pose proof (@lay_mono B HB src Hsrc m a nb p j i Hl ltac:(lia)). lia.
    Qed.
    Lemma region_tab i b : (i < nb)%nat -> (b < a + 4 * nb)%nat -> ~ region i b.
    Proof.
      unfold region. intros Hi Hb H2. pose proof (st_lay Hst) as Hl. fold nb in Hl.
      pose proof (@lay_ge B HB src Hsrc m a nb p i Hl ltac:(lia)). lia.
    Qed.
    Lemma region_le i b : (i < nb)%nat -> region i b -> (a <= b < a + p nb)%nat.
    Proof.
      unfold region. intros Hi Hb. pose proof (st_lay Hst) as Hl. fold nb in Hl.
      pose proof (@lay_mono B HB src Hsrc m a nb p (S i) nb Hl ltac:(lia)). lia.
    Qed.

    Section Close.
      Variable done : list nat.
      Variable m' : mem.
      Hypothesis Hdone : forall i, In i done -> (i < nb)%nat.
      Hypothesis Hc : close done m'.
      Lemma close_lay : lay m' a nb p.
      Proof.
        apply (@lay_ext B HB src Hsrc m); [|apply (st_lay Hst)]. intros b Hb. apply Hc. intros i Hi. apply region_tab; auto. lia.
      Qed.
      Lemma close_hdr i : (i < nb)%nat -> uint_at m' (a + p i) = position bs i.
      Proof.
        intros Hi. rewrite <- (st_hdr Hst) by auto. apply uint_at_ext. intros b Hb. apply Hc. intros j Hj.
        apply region_hdr with i; auto.
      Qed.
      Lemma close_end i : (i < nb)%nat -> am_end m' a nb d i = position bs (S i).
      Proof.
        intros Hi. unfold am_end. destruct (Nat.eqb_spec i (nb - 1)) as [E|E].
        - unfold d. rewrite <- position_end. f_equal. unfold nb in *. lia.
        - rewrite (lay_tab close_lay) by lia. apply close_hdr. lia.
      Qed.
      Lemma close_read i : (i < nb)%nat -> ~ In i done -> am_read aw m' a src nb d i = Some (nth i bs []).
      Proof.
        intros Hi Hn. apply read_gen with (p := p) (s := position bs i); auto.
        - apply close_lay.
        - now apply close_hdr.
        - rewrite close_end, position_S by auto. reflexivity.
        - eapply holds_ext; [|apply (st_cont Hst); auto]. intros b Hb. apply Hc. intros j Hj Hr.
          apply (@region_disj i j b); auto.
          + intros ->. contradiction.
          + unfold region. pose proof (st_fit Hst (i := i) Hi). lia.
        - apply ok_nth. apply (st_ok Hst).
      Qed.
    End Close.

    Lemma keep_len l : (length (keep pred l) <= length l)%nat.
    Proof. unfold keep. apply filter_len_le. Qed.
    Lemma keep_full l : length (keep pred l) = length l -> keep pred l = l.
    Proof.
      unfold keep. induction l as [|x l IH]; cbn [filter length]; auto. destruct (pred (fst x) (snd x)); intros H.
      - simpl in H. rewrite IH; auto.
      - pose proof (keep_len l) as Hk. unfold keep in Hk. cbn [length] in H. rewrite H in Hk. lia.
    Qed.
    Lemma block_len i : (length (nth i bs []) <= B)%nat.
    Proof.
      destruct (Nat.lt_ge_cases i (length bs)) as [H|H].
      - pose proof (st_len Hst) as Hf. rewrite Forall_forall in Hf. apply Hf. now apply nth_In.
      - rewrite nth_overflow by auto. simpl. lia.
    Qed.

    Lemma packBlock_run done m' i : (forall j, In j done -> (j < nb)%nat) -> close done m' -> (i < nb)%nat -> ~ In i done ->
      exists m'', am_packBlock B aw pred m' a src nb d i = Some (m'', length (keep pred (nth i bs []))) /\
        (forall b, ~ region i b -> m'' b = m' b) /\
        holds m'' (a + p i + 4) (en (keep pred (nth i bs []))).
    Proof.
      intros Hd Hc Hi Hn. unfold am_packBlock, am_start.
      rewrite (@lay_finger B HB src Hsrc m' a nb p i ltac:(lia) (@close_lay done m' Hd Hc) Hi).
      rewrite (close_hdr Hd Hc) by auto. rewrite (close_end Hd Hc), position_S by auto.
      rewrite (proj2 (Nat.ltb_ge _ _)) by lia.
      rewrite (close_read Hd Hc) by auto. cbv zeta.
      change (filter (fun e => pred (fst e) (snd e)) (nth i bs [])) with (keep pred (nth i bs [])).
      pose proof (keep_len (nth i bs [])) as Hk. pose proof (block_len i) as Hb.
      rewrite (proj2 (Nat.ltb_ge B _)) by (etransitivity; [exact Hk|exact Hb]).
      replace (position bs i + length (nth i bs []) - position bs i)%nat with (length (nth i bs [])) by lia.
      assert (Hokb : ok w (nth i bs [])) by (apply ok_nth, (st_ok Hst)).
      assert (Hcont : holds m' (a + p i + 4) (en (nth i bs []))).
      { eapply holds_ext; [|apply (st_cont Hst); auto]. intros b Hb'. apply Hc. intros j Hj Hr.
        apply (@region_disj i j b); auto; [intros ->; contradiction|].
        unfold region. pose proof (st_fit Hst (i := i) Hi). lia. }
      assert (G : forall n, n = length (keep pred (nth i bs [])) -> exists m'',
        (if (0 <? n)%nat && (n <? length (nth i bs []))%nat
         then match writeBlock am_cF (am_cW aw) m' (a + p i + 4) src (keep pred (nth i bs [])) with
              | None => None | Some (m, _) => Some (m, n) end
         else Some (m', n)) = Some (m'', n) /\
        (forall b, ~ region i b -> m'' b = m' b) /\
        holds m'' (a + p i + 4) (en (keep pred (nth i bs [])))); [|exact (G _ eq_refl)].
      intros n En. destruct (Nat.eqb_spec n 0) as [->|Hn0].
      - exists m'. split; [reflexivity|]. split; auto.
        symmetry in En. apply length_zero_iff_nil in En. rewrite En. apply holds_nil.
      - rewrite (proj2 (Nat.ltb_lt 0 _)) by lia. cbn [andb].
        destruct (Nat.ltb_spec n (length (nth i bs []))) as [H1|H1].
        + rewrite am_wB by (auto; now apply ok_keep). eexists. split; [reflexivity|]. split; [|apply holds_wr].
          intros b Hb'. apply wr_out.
          pose proof (@enc_filter_len w src Hsrc pred (nth i bs []) Hokb) as Hel. fold (keep pred (nth i bs [])) in Hel.
          pose proof (st_fit Hst (i := i) Hi). unfold region in Hb'. lia.
        + exists m'. split; [reflexivity|]. split; auto. rewrite (keep_full (nth i bs [])); [exact Hcont|].
          apply Nat.le_antisymm; [apply keep_len|]. rewrite <- En. exact H1.
    Qed.

    Lemma packBlocks_run ord : forall done m' cts, NoDup (done ++ ord) -> (forall j, In j (done ++ ord) -> (j < nb)%nat) ->
      close done m' ->
      (forall j, In j done -> holds m' (a + p j + 4) (en (keep pred (nth j bs []))) /\ cts j = length (keep pred (nth j bs []))) ->
      exists m'' cts', am_packBlocks B aw pred ord m' cts a src nb d = Some (m'', cts') /\
        close (done ++ ord) m'' /\
        (forall j, In j (done ++ ord) -> holds m'' (a + p j + 4) (en (keep pred (nth j bs []))) /\ cts' j = length (keep pred (nth j bs []))).
    Proof.
      induction ord as [|i ord IH]; intros done m' cts Hnd Hlt Hc Hd.
      - exists m', cts. rewrite app_nil_r. repeat split; auto; now apply Hd.
      - cbn [am_packBlocks].
        assert (Hi : (i < nb)%nat) by (apply Hlt, in_or_app; right; now left).
        assert (Hni : ~ In i done).
        { intros Hin. apply NoDup_remove_2 in Hnd. apply Hnd. apply in_or_app. now left. }
        destruct (@packBlock_run done m' i) as (m1 & E & Hfr & Hh); auto.
        { intros j Hj. apply Hlt, in_or_app. now left. }
        rewrite E. replace (done ++ i :: ord) with ((done ++ [i]) ++ ord) in * by (rewrite <- app_assoc; reflexivity).
        destruct (IH (done ++ [i]) m1 (fset cts i (length (keep pred (nth i bs []))))) as (m2 & cts2 & E2 & Hc2 & Hd2); auto.
        + intros b Hb. rewrite Hfr by (apply Hb, in_or_app; right; now left). apply Hc.
          intros j Hj. apply Hb, in_or_app. now left.
        + intros j Hj. apply in_app_or in Hj as [Hj|[<-|[]]].
          * destruct (Hd j Hj) as [H1 H2].
            assert (Hji : j <> i) by (intros ->; contradiction).
            rewrite fset_other by auto. split; auto.
            eapply holds_ext; [|exact H1]. intros b Hb. apply Hfr. intros Hr.
            assert (Hj' : (j < nb)%nat) by (apply Hlt; rewrite <- app_assoc; apply in_or_app; now left).
            apply (@region_disj i j b); auto.
            pose proof (@enc_filter_len w src Hsrc pred (nth j bs []) ltac:(apply ok_nth, (st_ok Hst))) as Hel.
            fold (keep pred (nth j bs [])) in Hel. pose proof (st_fit Hst (i := j) Hj'). unfold region. lia.
          * rewrite fset_same. auto.
        + exists m2, cts2. auto.
    Qed.

    Lemma bs'_nth i : nth i bs' [] = keep pred (nth i bs []).
    Proof. unfold bs'. change (@nil edge) with (keep pred []) at 1. apply map_nth. Qed.
    Lemma bs'_len : length bs' = nb.
    Proof. apply map_length. Qed.
    Lemma bs'_concat : concat bs' = keep pred (concat bs).
    Proof. unfold bs', keep. apply concat_filter. Qed.
    Lemma scan_position cts : (forall j, (j < nb)%nat -> cts j = length (keep pred (nth j bs []))) ->
      forall i, (i <= nb)%nat -> scan cts i = position bs' i.
    Proof.
      intros H i. induction i as [|i IH]; intros Hi; [reflexivity|].
      unfold scan in *. rewrite seq_S, map_app, list_sum_app, IH by lia.
      rewrite position_S by (rewrite bs'_len; lia). cbn [map list_sum fold_right Nat.add].
      rewrite bs'_nth, H by lia. lia.
    Qed.

    Lemma headers_run cts ord : forall m', lay m' a nb p -> NoDup ord -> (forall j, In j ord -> (j < nb)%nat) ->
      let m'' := am_headers ord m' cts a nb in
      (forall b, (forall j, In j ord -> ~ (a + p j <= b < a + p j + 4)%nat) -> m'' b = m' b) /\
      (forall j, In j ord -> uint_at m'' (a + p j) = N.to_nat (N.of_nat (scan cts j) mod two32)).
    Proof.
      pose proof (st_lay Hst) as Hl0. fold nb in Hl0.
      assert (Hdis : forall i j b, (i < nb)%nat -> (j < nb)%nat -> i <> j ->
                (a + p i <= b < a + p i + 4)%nat -> (a + p j <= b < a + p j + 4)%nat -> False).
      { intros i j b Hi Hj Hij H1 H2. destruct (Nat.lt_ge_cases i j).
        - pose proof (@lay_lt B HB src Hsrc m a nb p i j Hl0 ltac:(lia)). lia.
        - pose proof (@lay_lt B HB src Hsrc m a nb p j i Hl0 ltac:(lia)). lia. }
      induction ord as [|i ord IH]; intros m' Hl Hnd Hlt m''.
      - split; auto. intros j [].
      - unfold m''. cbn [am_headers]. inversion Hnd as [|x y Hni Hnd']; subst.
        assert (Hi : (i < nb)%nat) by (apply Hlt; now left).
        rewrite (@lay_finger B HB src Hsrc m' a nb p i ltac:(lia) Hl Hi).
        set (m1 := store32 m' (a + p i) (N.of_nat (scan cts i) mod two32)).
        destruct (IH m1) as [H1 H2]; auto.
        { apply (@lay_ext B HB src Hsrc m'); auto. intros b Hb. apply store32_out.
          pose proof (@lay_ge B HB src Hsrc m a nb p i Hl0 ltac:(lia)). lia. }
        { intros j Hj. apply Hlt. now right. }
        split.
        + intros b Hb. rewrite H1 by (intros; apply Hb; now right). apply store32_out.
          specialize (Hb i ltac:(now left)). lia.
        + intros j [<-|Hj]; [|now apply H2].
          rewrite (@uint_at_store m' (a + p i) (N.of_nat (scan cts i) mod two32)).
          * reflexivity.
          * apply N.mod_lt. discriminate.
          * intros b Hb. apply H1. intros j Hj Hr. apply (@Hdis i j b); auto.
            -- apply Hlt. now right.
            -- intros ->. contradiction.
    Qed.

    Lemma pack_phase12 o1 o2 : Permutation o1 (seq 0 nb) -> Permutation o2 (seq 0 nb) ->
      exists m1 cts, am_packBlocks B aw pred o1 m (fun _ => O) a src nb d = Some (m1, cts) /\
        scan cts nb = length (keep pred (concat bs)) /\
        let m2 := am_headers o2 m1 cts a nb in
        stored B aw src m2 a vd p bs' /\
        (forall b, (b < a \/ a + p nb <= b)%nat -> m2 b = m b).
    Proof.
      intros Hp1 Hp2.
      assert (Hin : forall o, Permutation o (seq 0 nb) -> forall i, In i o <-> (i < nb)%nat).
      { intros o Hp i. rewrite (Permutation_in' (x := i) eq_refl Hp), in_seq. lia. }
      assert (Hnd : forall o, Permutation o (seq 0 nb) -> NoDup o).
      { intros o Hp. eapply Permutation_NoDup; [apply Permutation_sym, Hp|apply seq_NoDup]. }
      destruct (@packBlocks_run o1 [] m (fun _ => O)) as (m1 & cts & E & Hc & Hd); cbn [app] in *.
      { now apply Hnd. } { intros j Hj. now apply (Hin o1) in Hj. } { intros b _. reflexivity. } { intros j []. }
      exists m1, cts. split; [exact E|].
      assert (Hcts : forall j, (j < nb)%nat -> cts j = length (keep pred (nth j bs []))).
      { intros j Hj. apply Hd. now apply Hin. }
      split. { rewrite (scan_position _ Hcts) by lia. rewrite <- bs'_len, position_end, bs'_concat. reflexivity. }
      assert (Hlt1 : forall i, In i o1 -> (i < nb)%nat) by (intros i Hi; now apply (Hin o1)).
      pose proof (@close_lay o1 m1 Hlt1 Hc) as Hl1.
      destruct (@headers_run cts o2 m1 Hl1) as [H1 H2]. { now apply Hnd. } { intros j Hj. now apply (Hin o2) in Hj. }
      set (m2 := am_headers o2 m1 cts a nb) in *. cbv zeta.
      pose proof (st_lay Hst) as Hl0. fold nb in Hl0.
      pose proof (@st_nb1 B HB aw src Hsrc m a vd p bs Hst) as Hnb1. fold nb in Hnb1.
      assert (Hlow : forall b, (b < a + 4 * nb)%nat -> m2 b = m b).
      { intros b Hb. rewrite H1.
        - apply Hc. intros i Hi. apply region_tab; auto.
        - intros j Hj Hr. apply (Hin o2) in Hj; auto. pose proof (@lay_ge B HB src Hsrc m a nb p j Hl0 ltac:(lia)). lia. }
      split.
      - pose proof (st_small Hst) as Hsm. pose proof (st_size Hst) as Hsz.
        pose proof (keep_len (concat bs)) as Hkl.
        split; auto.
        + rewrite <- (st_vd Hst). apply uint_at_ext. intros b Hb. apply Hlow. lia.
        + apply (st_pos Hst).
        + rewrite bs'_len. apply (st_nb Hst).
        + rewrite bs'_len. apply (@lay_ext B HB src Hsrc m); auto. intros b Hb. apply Hlow. lia.
        + rewrite bs'_len. intros i Hi. rewrite H2 by now apply Hin.
          rewrite (scan_position _ Hcts) by lia.
          assert (Hple : (position bs' i <= length (concat bs'))%nat) by (apply position_le; rewrite bs'_len; lia).
          rewrite bs'_concat in Hple. rewrite N.mod_small by lia. lia.
        + rewrite bs'_len. intros i Hi. rewrite bs'_nth.
          eapply holds_ext; [|apply Hd; now apply Hin]. intros b Hb. apply H1. intros j Hj Hr. apply (Hin o2) in Hj; auto.
          apply (@region_hdr i j b Hi Hj Hr). unfold region.
          pose proof (@enc_filter_len w src Hsrc pred (nth i bs []) ltac:(apply ok_nth, (st_ok Hst))) as Hel.
          fold (keep pred (nth i bs [])) in Hel. pose proof (st_fit Hst (i := i) Hi). lia.
        + rewrite bs'_len. intros i Hi. rewrite bs'_nth.
          pose proof (@enc_filter_len w src Hsrc pred (nth i bs []) ltac:(apply ok_nth, (st_ok Hst))) as Hel.
          fold (keep pred (nth i bs [])) in Hel. pose proof (st_fit Hst (i := i) Hi). lia.
        + rewrite bs'_concat. apply ok_keep. apply (st_ok Hst).
        + unfold bs'. apply Forall_map. eapply Forall_impl; [|apply (st_len Hst)]. intros b Hb. cbv beta in *.
          pose proof (keep_len b). lia.
        + rewrite bs'_concat. lia.
      - intros b Hb. rewrite H1.
        + apply Hc. intros i Hi Hr. apply Hlt1 in Hi. pose proof (@region_le i b Hi Hr). lia.
        + intros j Hj Hr. apply (Hin o2) in Hj; auto.
          pose proof (@lay_lt B HB src Hsrc m a nb p j nb Hl0 ltac:(lia)). pose proof (@lay_ge B HB src Hsrc m a nb p j Hl0 ltac:(lia)). lia.
    Qed.
  End Pack.
End AM.
