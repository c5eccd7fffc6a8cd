(* multi_search returns the pairs of a vertex and the label of a centre that reaches it inside its class *)
From Coq Require Import Permutation.
From Verif Require Import Base ListUtil VSModel EMModel FAModel SCModel.

Lemma leqb_eq a b : leqb a b = true <-> a = b.
Proof.
  destruct a as [x i], b as [y j]. unfold leqb. simpl. rewrite andb_true_iff, Nat.eqb_eq. destruct x, y; simpl; split; intros H; try (destruct H; congruence); try discriminate; split; congruence.
Qed.
Lemma stored_In v l T : stored v l T = true <-> In (v, l) T.
Proof.
  unfold stored. rewrite existsb_exists. split.
  - intros ([a b] & H & E). simpl in E. apply andb_true_iff in E as [E1 E2]. apply Nat.eqb_eq in E1, E2. now subst.
  - intros H. exists (v, l). split; auto. simpl. now rewrite !Nat.eqb_refl.
Qed.
Lemma labels_of_In v l T : In l (labels_of v T) <-> In (v, l) T.
Proof.
  unfold labels_of. rewrite in_map_iff. split.
  - intros ([a b] & E & H). simpl in E. subst b. apply filter_In in H as [H E]. simpl in E. apply Nat.eqb_eq in E. now subst.
  - intros H. exists (v, l). split; auto. apply filter_In. split; auto. simpl. apply Nat.eqb_refl.
Qed.

Lemma combine_nth_in {A B} (a : list A) (b : list B) i x y : nth_error a i = Some x -> nth_error b i = Some y -> In (x, y) (combine a b).
Proof. revert b i. induction a as [|c a IH]; intros [|q b] [|i] H1 H2; simpl in *; try discriminate; [left; congruence|right; eauto]. Qed.

Section Search.
  Variable outn : nat -> list nat.
  Variable L : nat -> label.
  (* reachable inside the class *)
  Inductive creach (c : nat) : nat -> Prop :=
  | cr_0 : creach c c
  | cr_S : forall u v, creach c u -> In v (outn u) -> L u = L v -> fst (L v) = false -> creach c v.

  Lemma in_scalls F s d : In (s, d) (scalls outn L F) <-> In s F /\ In d (outn s) /\ fst (L d) = false.
  Proof.
    unfold scalls. rewrite in_flat_map. split.
    - intros (x & Hx & H). apply in_map_iff in H as (y & E & H). injection E as -> ->. apply filter_In in H as [H1 H2]. apply negb_true_iff in H2. auto.
    - intros (H1 & H2 & H3). exists s. split; auto. apply in_map_iff. exists d. split; auto. apply filter_In. split; auto. now rewrite H3.
  Qed.

  Section Centers.
    Variable centers : list nat.
    Variable off : nat.
    Definition good (v l : nat) : Prop := exists i c, nth_error centers i = Some c /\ l = off + i /\ creach c v.

    Section Round.
      Variable F : list nat.
      Variable T0 : entries.
      Let cs := scalls outn L F.
      Definition thr_ok (T : entries) (s d : nat) (p : spc) : Prop :=
        match p with
        | SStart => True
        | SIter must seen ch => L s = L d /\ (forall l, In (s, l) T0 -> In l must) /\ (forall l, In l seen -> In (d, l) T)
        | SFlag => forall l, In (s, l) T0 -> In (d, l) T
        | SDone _ => L s = L d -> forall l, In (s, l) T0 -> In (d, l) T
        end.
      Definition pending (p : spc) : Prop := match p with SIter _ _ true => True | SFlag => True | _ => False end.
      Record rinv (m : mem) (ps : list spc) : Prop := {
        ri_len : length ps = length cs;
        ri_mono : incl T0 (tab m);
        ri_good : forall v l, In (v, l) (tab m) -> good v l;
        ri_bits : forall v, bits m v = true -> exists i s, nth_error cs i = Some (s, v) /\ nth_error ps i = Some (SDone true);
        ri_new : forall d l, In (d, l) (tab m) -> In (d, l) T0 \/ bits m d = true \/ exists i s p, nth_error cs i = Some (s, d) /\ nth_error ps i = Some p /\ pending p;
        ri_thr : forall i s d p, nth_error cs i = Some (s, d) -> nth_error ps i = Some p -> thr_ok (tab m) s d p }.

      Lemma thr_mono T T' s d p : incl T T' -> thr_ok T s d p -> thr_ok T' s d p.
      Proof. intros HT. destruct p; simpl; auto. intros (A & B & C). repeat split; auto. Qed.
      Lemma act_mono s d m p m' p' : act L s d m p m' p' -> incl (tab m) (tab m').
      Proof. destruct 1; simpl; auto using incl_refl. apply incl_appl, incl_refl. Qed.

      Lemma rinv_step m ps i s d p m' p' : rinv m ps -> nth_error cs i = Some (s, d) -> nth_error ps i = Some p -> act L s d m p m' p' ->
        rinv m' (lset ps i p').
      Proof.
        intros [I1 I2 I3 I4 I5 I6] Hc Hp Ha. assert (Hlt : i < length ps) by (apply nth_error_Some; congruence).
        assert (Hm := act_mono Ha). pose proof (I6 i s d p Hc Hp) as Ht.
        assert (Hin : In s F /\ In d (outn s) /\ fst (L d) = false) by (apply in_scalls; eapply nth_error_In; eauto). destruct Hin as (HF & Hd & Hu).
        split.
        - now rewrite length_lset.
        - eapply incl_tran; eauto.
        - intros v l H. destruct Ha as [m Ha|m Ha|m must seen ch l0 H1 H2 H3|m must seen ch l0 H1 H2 H3|m must seen ch H1|m H1|m H1]; auto.
          simpl in H. apply in_app_iff in H as [H|[H|[]]]; auto. injection H as <- <-. apply stored_In in H1. apply I3 in H1 as (j & c & J1 & J2 & J3).
          exists j, c. split; auto. split; auto. destruct Ht as (E & _). eapply cr_S; eauto.
        - intros v Hv. assert (Hv' : bits m v = true \/ (v = d /\ p' = SDone true)).
          { destruct Ha; simpl in Hv; auto. destruct (Nat.eq_dec v d) as [->|Hne]; auto. rewrite fset_other in Hv; auto. }
          destruct Hv' as [Hv'|[-> ->]].
          + destruct (I4 v Hv') as (j & s' & J1 & J2). exists j, s'. split; auto. rewrite nth_error_lset_other; auto. intros ->. rewrite Hp in J2. injection J2 as ->.
            inversion Ha.
          + exists i, s. split; auto. now rewrite nth_error_lset_same.
        - intros v l H. assert (Hb : bits m v = true -> bits m' v = true).
          { intros Hb. destruct Ha; simpl; auto. unfold fset. destruct (v =? d); auto. }
          assert (Hi : pending p' -> v = d -> exists i0 s0 p0, nth_error cs i0 = Some (s0, v) /\ nth_error (lset ps i p') i0 = Some p0 /\ pending p0).
          { intros Hp' ->. exists i, s, p'. split; auto. split; auto. now rewrite nth_error_lset_same. }
          assert (Hold : In (v, l) (tab m) -> In (v, l) T0 \/ bits m' v = true \/ exists i0 s0 p0, nth_error cs i0 = Some (s0, v) /\ nth_error (lset ps i p') i0 = Some p0 /\ pending p0).
          { intros Ho. destruct (I5 v l Ho) as [X|[X|(j & s' & q & J1 & J2 & J3)]]; auto. right.
            destruct (Nat.eq_dec j i) as [->|Hne].
            - rewrite Hc in J1. injection J1 as <- <-. rewrite Hp in J2. injection J2 as <-.
              destruct Ha as [m Ha|m Ha|m must seen ch l0 H1 H2 H3|m must seen ch l0 H1 H2 H3|m must seen ch H1|m H1|m H1]; simpl in J3; try (destruct J3; fail).
              + right. apply Hi; auto.
              + right. apply Hi; auto. exact Logic.I.
              + destruct ch; [|destruct J3]. right. apply Hi; auto.
              + left. simpl. apply fset_same.
              + left. auto.
            - right. exists j, s', q. split; auto. rewrite nth_error_lset_other by auto. auto. }
          destruct Ha as [m Ha|m Ha|m must seen ch l0 H1 H2 H3|m must seen ch l0 H1 H2 H3|m must seen ch H1|m H1|m H1]; auto.
          simpl in H. apply in_app_iff in H as [H|[H|[]]]; auto. injection H as <- <-. right. right. apply Hi; auto. exact Logic.I.
        - intros j s' d' q J1 J2. destruct (Nat.eq_dec j i) as [->|Hne].
          + rewrite nth_error_lset_same in J2 by auto. injection J2 as <-. rewrite Hc in J1. injection J1 as <- <-.
            destruct Ha as [m Ha|m Ha|m must seen ch l0 H1 H2 H3|m must seen ch l0 H1 H2 H3|m must seen ch H1|m H1|m H1]; simpl in *.
            * intros E. rewrite E in Ha. assert (X : leqb (L d) (L d) = true) by now apply leqb_eq. congruence.
            * apply leqb_eq in Ha. repeat split; auto; [|easy]. intros l Hl. apply labels_of_In. auto.
            * destruct Ht as (A & B & C). repeat split; auto. intros l [<-|Hl]; auto. now apply stored_In.
            * destruct Ht as (A & B & C). repeat split; auto. intros l Hl. apply in_app_iff. destruct Hl as [<-|Hl]; auto. right. now left.
            * destruct Ht as (A & B & C). destruct ch; simpl; intros; apply C, H1, B; auto.
            * auto.
            * auto.
          + rewrite nth_error_lset_other in J2 by auto. eapply thr_mono; eauto.
      Qed.
      Lemma rinv_start b : (forall v l, In (v, l) T0 -> good v l) -> (forall v, b v = false) -> rinv {| tab := T0; bits := b |} (repeat SStart (length cs)).
      Proof.
        intros Hg Hb. split; simpl; auto using incl_refl.
        - apply repeat_length.
        - intros v H. rewrite Hb in H. discriminate.
        - intros i s d p _ H. apply nth_error_In, repeat_spec in H. subst. exact Logic.I.
      Qed.
      Lemma rinv_exec cap m ps m' ps' : sexec L cs cap m ps m' ps' -> rinv m ps -> rinv m' ps'.
      Proof. induction 1; auto. intros. eapply rinv_step; eauto. Qed.

      Lemma rinv_end m ps : rinv m ps -> sfinished ps ->
        (forall s l, In (s, l) T0 -> In s F \/ forall d, In d (outn s) -> L s = L d -> fst (L d) = false -> In (d, l) T0) ->
        (forall v, bits m v = true -> In v (soutput cs ps)) /\
        forall s l, In (s, l) (tab m) -> In s (soutput cs ps) \/ forall d, In d (outn s) -> L s = L d -> fst (L d) = false -> In (d, l) (tab m).
      Proof.
        intros [I1 I2 I3 I4 I5 I6] Hf Hcl. unfold sfinished in Hf. rewrite Forall_forall in Hf.
        assert (Hb : forall v, bits m v = true -> In v (soutput cs ps)).
        { intros v Hv. destruct (I4 v Hv) as (i & s & H1 & H2). unfold soutput. apply in_flat_map. exists ((s, v), SDone true). split; [|now left].
          eapply combine_nth_in; eauto. }
        split; auto. intros s l H. destruct (I5 s l H) as [H0|[H0|(i & s' & p & H1 & H2 & H3)]].
        - destruct (Hcl s l H0) as [HF|HF]; [|right; intros; apply I2; auto]. right. intros d H1 H2 H3.
          assert (Hin : In (s, d) cs) by (apply in_scalls; auto). apply In_nth_error in Hin as (i & Hi).
          assert (Hlt : i < length ps) by (rewrite I1; apply nth_error_Some; congruence).
          destruct (nth_error ps i) as [p|] eqn:Ep; [|apply nth_error_None in Ep; lia].
          destruct (Hf p) as [r ->]; [eapply nth_error_In; eauto|]. apply (I6 i s d _ Hi Ep); auto.
        - left. auto.
        - destruct (Hf p) as [r ->]; [eapply nth_error_In; eauto|]. destruct H3.
      Qed.
    End Round.

    Lemma unflag_false F b : (forall v, b v = true -> In v F) -> forall v, unflag F b v = false.
    Proof.
      intros H v. unfold unflag. destruct (existsb (Nat.eqb v) F) eqn:E; auto. destruct (b v) eqn:Eb; auto.
      apply H in Eb. rewrite <- E. symmetry. apply existsb_exists. exists v. split; auto. apply Nat.eqb_refl.
    Qed.
    Lemma search_ok cap F m r : search_loop outn L cap F m r ->
      (forall v l, In (v, l) (tab m) -> good v l) -> (forall v, bits m v = true -> In v F) ->
      (forall s l, In (s, l) (tab m) -> In s F \/ forall d, In d (outn s) -> L s = L d -> fst (L d) = false -> In (d, l) (tab m)) ->
      (forall i c, nth_error centers i = Some c -> In (c, off + i) (tab m)) ->
      forall cap' T, fst r = Some (cap', T) -> (forall v, snd r v = false) /\ forall v l, In (v, l) T <-> good v l.
    Proof.
      induction 1 as [cap m|cap F m m1 ps F' r HF cap1 cs He Hfin Hp Hr IH|]; intros Hg Hb Hcl Hi cap' T E.
      - simpl in E. injection E as <- <-. split; [intros v; simpl; destruct (bits m v) eqn:Eb; auto; now apply Hb in Eb|].
        intros v l. split; auto. intros (i & c & H1 & -> & H2). induction H2 as [|u v Hu IH Hv He Hd]; auto.
        destruct (Hcl u (off + i) IH) as [[]|X]. auto.
      - assert (R := rinv_exec He (@rinv_start F (tab m) _ Hg (unflag_false F (bits m) Hb))).
        destruct (rinv_end R Hfin Hcl) as [E1 E2]. simpl in *. apply IH with (cap' := cap'); auto.
        + apply (ri_good R).
        + intros v Hv. apply (Permutation_in _ (Permutation_sym Hp)). auto.
        + intros s l Hs. destruct (E2 s l Hs) as [X|X]; auto. left. apply (Permutation_in _ (Permutation_sym Hp)). auto.
        + intros i c Hc. apply (ri_mono R). auto.
      - discriminate.
    Qed.
  End Centers.

  Theorem multi_ok b centers off cap T b' : multi_search outn L b centers off (Some (cap, T), b') -> (forall v, b v = false) ->
    (forall v, b' v = false) /\ forall v l, In (v, l) T <-> exists i c, nth_error centers i = Some c /\ l = off + i /\ creach c v.
  Proof.
    intros (T0 & Hp & H) Hb.
    assert (HT : forall v l, In (v, l) T0 <-> exists i, nth_error centers i = Some v /\ l = off + i).
    { intros v l. rewrite (Permutation_in' (eq_refl (v, l)) Hp). clear. generalize off as o. induction centers as [|c cs IH]; intros o.
      - simpl. split; [intros []|intros ([|i] & H & _); discriminate].
      - simpl. rewrite IH. split.
        + intros [E|(i & H & ->)]; [injection E as -> ->; exists 0; simpl; split; auto; lia|exists (S i); split; auto; lia].
        + intros ([|i] & H & ->); simpl in H; [left; injection H as ->; f_equal; lia|right; exists i; split; auto; lia]. }
    eapply (search_ok H); simpl; eauto.
    - intros v l Hv. apply HT in Hv as (i & H1 & H2). exists i, v. repeat split; auto. constructor.
    - intros v Hv. rewrite Hb in Hv. discriminate.
    - intros s l Hs. apply HT in Hs as (i & H1 & _). left. eapply nth_error_In; eauto.
    - intros i c Hc. apply HT. eauto.
  Qed.
End Search.
