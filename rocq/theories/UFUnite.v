(* The unite variants. *)
From Verif Require Import Base UFSpec UFRoots UFModel UFLogic UFFind.

Section Unite.
  Variable n mx : nat.
  Variable C : nat -> nat -> Prop.
  Hypothesis Crefl : forall x, C x x.
  Hypothesis Csym : forall x y, C x y -> C y x.
  Hypothesis Ctrans : forall x y z, C x y -> C y z -> C x z.

  Section Rules.
  Variable md : mode.
  Notation safe := (safe n C md).
  Notation rely := (rely C md).
  Notation guar := (guar C md).
  Notation Inv := (Inv C).

  Lemma safe_RdL k t a c m (Q : post) : a < n ->
    (forall k' m1, k' < k -> rely t m m1 -> Inv m1 ->
       safe k' t (c (match aux m1 a with None => false | _ => true end)) m1 Q) ->
    safe k t (RdL a c) m Q.
  Proof. destruct k; simpl; auto. Qed.

  Lemma safe_ClrL k t a c m (Q : post) : a < n ->
    (forall m1, rely t m m1 -> Inv m1 -> guar t m1 (set_aux m1 a None)) ->
    (forall k' m1, k' < k -> rely t m m1 -> Inv m1 -> safe k' t c (set_aux m1 a None) Q) ->
    safe k t (ClrL a c) m Q.
  Proof. destruct k; simpl; auto. Qed.

  Lemma guar_acq t m a : aux m a = None -> guar t m (set_aux m a (Some t)).
  Proof.
    intros E. apply g_acq with (a := a); simpl; auto.
    - apply fset_same.
    - intros. now apply fset_other.
  Qed.

  Lemma safe_CasL k t a c m (Q : post) : a < n ->
    (forall k' m1, k' < k -> rely t m m1 -> Inv m1 -> aux m1 a = None ->
        safe k' t (c true) (set_aux m1 a (Some t)) Q) ->
    (forall k' m1, k' < k -> rely t m m1 -> Inv m1 -> safe k' t (c false) m1 Q) ->
    safe k t (CasL a c) m Q.
  Proof.
    destruct k; [simpl; auto|]. intros Ha Ht Hf m1 Hr Hi. simpl.
    split; [exact Ha|]. split.
    - intros E. split; [now apply guar_acq|]. apply Ht; auto.
    - intros E. apply Hf; auto.
  Qed.

  (* facts that no step of anybody destroys *)
  Definition persistent (S : mem -> Prop) : Prop :=
    forall t m m', Inv m -> guar t m m' -> S m -> S m'.

  Lemma persistent_rely S t m m' : persistent S -> Inv m -> rely t m m' -> S m -> S m'.
  Proof.
    intros HS Hi Hr Hs. refine (@stable_guar C Crefl Csym Ctrans md S t _ m m' Hi Hs Hr). exact HS.
  Qed.

  Lemma safe_frame S : persistent S -> forall k t p m (Q : post), Inv m -> S m -> safe k t p m Q ->
    safe k t p m (fun m' r => Q m' r /\ S m').
  Proof.
    intros HS. induction k as [|k IH]; intros t p m Q Hi Hs H; [exact I|].
    simpl in *. intros m1 Hr Hi1. specialize (H m1 Hr Hi1).
    assert (Hs1 : S m1) by exact (persistent_rely HS Hi Hr Hs).
    destruct p as [r|a c|a v c|a old new c|a c|a c|a c|q c|].
    - auto.
    - destruct H as [H1 H2]. split; auto.
    - destruct H as (H1 & H2 & H3). split; auto. split; auto. apply IH; auto.
      + exact (guar_inv Crefl Csym Ctrans Hi1 H2).
      + exact (HS _ _ _ Hi1 H2 Hs1).
    - destruct H as (H1 & H2 & H3). split; auto. split; auto.
      intros E. destruct (H2 E) as [H4 H5]. split; auto. apply IH; auto.
      all: solve [exact (guar_inv Crefl Csym Ctrans Hi1 H4) | exact (HS _ _ _ Hi1 H4 Hs1)].
    - destruct H as [H1 H2]. split; auto.
    - destruct H as (H1 & H2 & H3). split; auto. split; auto.
      intros E. destruct (H2 E) as [H4 H5]. split; auto. apply IH; auto.
      all: solve [exact (guar_inv Crefl Csym Ctrans Hi1 H4) | exact (HS _ _ _ Hi1 H4 Hs1)].
    - destruct H as (H1 & H2 & H3). split; auto. split; auto. apply IH; auto.
      all: solve [exact (guar_inv Crefl Csym Ctrans Hi1 H2) | exact (HS _ _ _ Hi1 H2 Hs1)].
    - eapply safe_post; [|apply (IH t q m1 _ Hi1 Hs1 H)].
      intros m2 r Hi2 [H2 Hs2]. cbn beta in *. apply IH; auto.
    - exact H.
  Qed.

  Lemma safe_Bind_frame S k t q c m (Q' Q : post) : persistent S -> Inv m -> S m ->
    (forall k', k' < k -> safe k' t q m Q') ->
    (forall k' m1 r, k' < k -> Inv m1 -> Q' m1 r -> S m1 -> safe k' t (c r) m1 Q) ->
    safe k t (Bind q c) m Q.
  Proof.
    intros HS Hi Hs Hq Hc. eapply safe_Bind.
    - intros k' Hk'. apply safe_frame with (S := S); eauto.
    - intros k' m1 r Hk' Hi1 [H1 H2]. auto.
  Qed.

  Lemma persistent_eqv x y : persistent (fun m => eqv m x y).
  Proof. intros t m m' Hi Hg. eapply guar_eqv; eauto. Qed.
  Lemma persistent_nonroot x : persistent (fun m => nonroot m x).
  Proof. intros t m m' Hi Hg. eapply guar_nonroot; eauto. Qed.
  Lemma persistent_rootish x : persistent (fun m => rootish md m x).
  Proof. intros t m m' Hi Hg. eapply guar_rootish; eauto. Qed.
  Lemma persistent_and S1 S2 : persistent S1 -> persistent S2 -> persistent (fun m => S1 m /\ S2 m).
  Proof. intros H1 H2 t m m' Hi Hg [H3 H4]. split; eauto. Qed.

  Lemma guar_hook_set t m r v : md <> Label -> par m r = r -> v < r -> C r v ->
    (md = Locked \/ md = Hooked -> aux m r = Some t) -> guar t m (set_par m r v).
  Proof.
    intros. apply g_hook with (r := r) (v := v); auto. apply upd1_set.
  Qed.

  Lemma hook_eqv m r v : Inv m -> par m r = r -> v < r -> eqv (set_par m r v) r v.
  Proof.
    intros Hi Hr Hv. unfold eqv.
    pose proof (root_hook (proj1 Hi) Hr Hv (upd1_set m r v)) as H.
    rewrite !H. rewrite (root_self (par m) Hr), Nat.eqb_refl.
    destruct (Nat.eqb_spec (root (par m) v) r) as [E|E]; auto.
  Qed.

  Lemma compress_both_safe f x y r k t m (S : mem -> Prop) : Inv m -> x < n -> y < n ->
    persistent S -> S m -> safe k t (compress_both f x y r) m (fun m' r' => S m' /\ r' = r).
  Proof.
    intros Hi Hx Hy HS Hs. unfold compress_both. destruct (is_naive f).
    - apply safe_Ret. intros m1 Hr1 Hi1. split; auto. exact (persistent_rely HS Hi Hr1 Hs).
    - eapply safe_Bind_frame with (S := S); auto.
      + intros k' _. apply find_safe; auto.
      + intros k1 m1 r1 Hk1 Hi1 _ Hs1. eapply safe_Bind_frame with (S := S); auto.
        * intros k' _. apply find_safe; auto.
        * intros k2 m2 r2 Hk2 Hi2 _ Hs2. apply safe_Ret. intros m3 Hr3 Hi3. split; auto.
          exact (persistent_rely HS Hi2 Hr3 Hs2).
  Qed.
  End Rules.

  Notation Inv := (Inv C).

  Definition joined (u0 v0 : nat) : post := fun m _ => eqv m u0 v0.

  Ltac ef H := eapply eqv_trans; [exact H|].

  (* -- Unite ------------------------------------------------------- *)
  Lemma unite_loop_safe f u0 v0 : C u0 v0 -> forall k t u v m, Inv m -> u < n -> v < n ->
    eqv m u0 u -> eqv m v0 v -> safe n C Free k t (unite_loop mx f u v) m (joined u0 v0).
  Proof.
    intros HC. induction k as [k IH] using lt_wf_ind. intros t u v m Hi Hu Hv Eu Ev.
    rewrite (frob_eq (unite_loop mx f u v)); simpl.
    eapply safe_Bind_frame with (S := fun m => eqv m u0 u /\ eqv m v0 v); auto.
    { apply persistent_and; apply persistent_eqv. }
    { intros k' _. apply find_safe; auto. }
    intros k1 m1 u' Hk1 Hi1 (Eu1 & Hu' & Hle' & _) [Eu2 Ev2].
    assert (Eu3 : eqv m1 u0 u') by (ef Eu2; auto).
    eapply safe_Bind_frame with (S := fun m => eqv m u0 u' /\ eqv m v0 v); auto.
    { apply persistent_and; apply persistent_eqv. }
    { intros k' _. apply find_safe; auto. }
    intros k2 m2 v' Hk2 Hi2 (Ev3 & Hv' & Hle2 & _) [Eu4 Ev4].
    assert (Ev5 : eqv m2 v0 v') by (ef Ev4; auto).
    assert (HC2 : C u' v').
    { apply Ctrans with (y := u0). { apply Csym. eapply eqv_C; eauto. }
      apply Ctrans with (y := v0); auto. eapply eqv_C; eauto. }
    clear Eu1 Eu2 Ev2 Eu3 Ev3 Ev4.
    assert (Retry : forall k3 m3, k3 < k2 -> Inv m3 -> eqv m3 u0 u' -> eqv m3 v0 v' ->
       safe n C Free k3 t (unite_loop mx f u' v') m3 (joined u0 v0)).
    { intros. apply IH; auto. lia. }
    destruct (Nat.eqb_spec u' v') as [E|E].
    { subst v'. apply safe_Ret. intros m3 Hr3 Hi3. adv Hi2 Hr3. ef Eu4. now apply eqv_sym. }
    destruct (Nat.ltb_spec v' u') as [Hlt|Hge].
    - apply safe_Rd; auto. intros k3 m3 Hk3 Hr3 Hi3. adv Hi2 Hr3.
      destruct (par m3 u' =? u'); [|now apply Retry].
      apply safe_Cas; auto.
      + intros m4 Hr4 Hi4 E4. apply guar_hook_set; auto; try discriminate. intros [?|?]; discriminate.
      + intros k4 m4 Hk4 Hr4 Hi4 E4. adv Hi3 Hr4.
        assert (Hg : guar C Free t m4 (set_par m4 u' v')).
        { apply guar_hook_set; auto; try discriminate. intros [?|?]; discriminate. }
        assert (Hi5 : Inv (set_par m4 u' v')) by (eapply guar_inv; eauto).
        pose proof (hook_eqv Hi4 E4 Hlt) as He.
        assert (E5 : eqv (set_par m4 u' v') u0 u') by (eapply guar_eqv; [exact Hi4|exact Hg|auto]).
        assert (E6 : eqv (set_par m4 u' v') v0 v') by (eapply guar_eqv; [exact Hi4|exact Hg|auto]).
        apply safe_Ret. intros m6 Hr6 Hi6. adv Hi5 Hr6. ef E5. ef He. now apply eqv_sym.
      + intros k4 m4 Hk4 Hr4 Hi4 E4. adv Hi3 Hr4. apply Retry; auto. lia.
    - assert (Hlt : u' < v') by lia.
      apply safe_Rd; auto. intros k3 m3 Hk3 Hr3 Hi3. adv Hi2 Hr3.
      destruct (par m3 v' =? v'); [|now apply Retry].
      apply safe_Cas; auto.
      + intros m4 Hr4 Hi4 E4. apply guar_hook_set; auto; try discriminate. intros [?|?]; discriminate.
      + intros k4 m4 Hk4 Hr4 Hi4 E4. adv Hi3 Hr4.
        assert (Hg : guar C Free t m4 (set_par m4 v' u')).
        { apply guar_hook_set; auto; try discriminate. intros [?|?]; discriminate. }
        assert (Hi5 : Inv (set_par m4 v' u')) by (eapply guar_inv; eauto).
        pose proof (hook_eqv Hi4 E4 Hlt) as He.
        assert (E5 : eqv (set_par m4 v' u') u0 u') by (eapply guar_eqv; [exact Hi4|exact Hg|auto]).
        assert (E6 : eqv (set_par m4 v' u') v0 v') by (eapply guar_eqv; [exact Hi4|exact Hg|auto]).
        apply safe_Ret. intros m6 Hr6 Hi6. adv Hi5 Hr6. ef E5. apply eqv_sym. ef E6. exact He.
      + intros k4 m4 Hk4 Hr4 Hi4 E4. adv Hi3 Hr4. apply Retry; auto. lia.
  Qed.

  (* -- SimpleUnionAsync -------------------------------------------- *)
  Lemma unite_impl_safe f u0 v0 : C u0 v0 -> forall k t u v m, Inv m -> u < n -> v < n ->
    eqv m u0 u -> eqv m v0 v -> safe n C Free k t (unite_impl f u v) m (joined u0 v0).
  Proof.
    intros HC. induction k as [k IH] using lt_wf_ind. intros t u v m Hi Hu Hv Eu Ev.
    rewrite (frob_eq (unite_impl f u v)); simpl.
    destruct (Nat.eqb_spec u v) as [E|E].
    { subst v. apply safe_Ret. intros m3 Hr3 Hi3. adv Hi Hr3. ef Eu. now apply eqv_sym. }
    clear E.
    eapply safe_Bind_frame with (S := fun m => eqv m u0 u /\ eqv m v0 v); auto.
    { apply persistent_and; apply persistent_eqv. }
    { intros k' _. apply find_safe; auto. }
    intros k1 m1 u' Hk1 Hi1 (Eu1 & Hu' & Hle' & _) [Eu2 Ev2].
    assert (Eu3 : eqv m1 u0 u') by (ef Eu2; auto).
    eapply safe_Bind_frame with (S := fun m => eqv m u0 u' /\ eqv m v0 v); auto.
    { apply persistent_and; apply persistent_eqv. }
    { intros k' _. apply find_safe; auto. }
    intros k2 m2 v' Hk2 Hi2 (Ev3 & Hv' & Hle2 & _) [Eu4 Ev4].
    assert (Ev5 : eqv m2 v0 v') by (ef Ev4; auto).
    assert (HC2 : C u' v').
    { apply Ctrans with (y := u0). { apply Csym. eapply eqv_C; eauto. }
      apply Ctrans with (y := v0); auto. eapply eqv_C; eauto. }
    clear Eu1 Eu2 Ev2 Eu3 Ev3 Ev4.
    assert (Retry : forall k3 m3, k3 < k -> Inv m3 -> eqv m3 u0 u' -> eqv m3 v0 v' ->
       safe n C Free k3 t (unite_impl f u' v') m3 (joined u0 v0)).
    { intros. apply IH; auto. }
    destruct (Nat.ltb_spec v' u') as [Hlt|Hge]; [|destruct (Nat.ltb_spec u' v') as [Hlt|Hge2]].
    - apply safe_Rd; auto. intros k3 m3 Hk3 Hr3 Hi3. adv Hi2 Hr3.
      destruct (par m3 u' =? u'); [|apply Retry; auto; lia].
      apply safe_Cas; auto.
      + intros m4 Hr4 Hi4 E4. apply guar_hook_set; auto; try discriminate. intros [?|?]; discriminate.
      + intros k4 m4 Hk4 Hr4 Hi4 E4. adv Hi3 Hr4.
        assert (Hg : guar C Free t m4 (set_par m4 u' v')).
        { apply guar_hook_set; auto; try discriminate. intros [?|?]; discriminate. }
        assert (Hi5 : Inv (set_par m4 u' v')) by (eapply guar_inv; eauto).
        pose proof (hook_eqv Hi4 E4 Hlt) as He.
        assert (E5 : eqv (set_par m4 u' v') u0 u') by (eapply guar_eqv; [exact Hi4|exact Hg|auto]).
        assert (E6 : eqv (set_par m4 u' v') v0 v') by (eapply guar_eqv; [exact Hi4|exact Hg|auto]).
        apply safe_Ret. intros m6 Hr6 Hi6. adv Hi5 Hr6. ef E5. ef He. now apply eqv_sym.
      + intros k4 m4 Hk4 Hr4 Hi4 E4. adv Hi3 Hr4. apply Retry; auto. lia.
    - apply safe_Rd; auto. intros k3 m3 Hk3 Hr3 Hi3. adv Hi2 Hr3.
      destruct (par m3 v' =? v'); [|apply Retry; auto; lia].
      apply safe_Cas; auto.
      + intros m4 Hr4 Hi4 E4. apply guar_hook_set; auto; try discriminate. intros [?|?]; discriminate.
      + intros k4 m4 Hk4 Hr4 Hi4 E4. adv Hi3 Hr4.
        assert (Hg : guar C Free t m4 (set_par m4 v' u')).
        { apply guar_hook_set; auto; try discriminate. intros [?|?]; discriminate. }
        assert (Hi5 : Inv (set_par m4 v' u')) by (eapply guar_inv; eauto).
        pose proof (hook_eqv Hi4 E4 Hlt) as He.
        assert (E5 : eqv (set_par m4 v' u') u0 u') by (eapply guar_eqv; [exact Hi4|exact Hg|auto]).
        assert (E6 : eqv (set_par m4 v' u') v0 v') by (eapply guar_eqv; [exact Hi4|exact Hg|auto]).
        apply safe_Ret. intros m6 Hr6 Hi6. adv Hi5 Hr6. ef E5. apply eqv_sym. ef E6. exact He.
      + intros k4 m4 Hk4 Hr4 Hi4 E4. adv Hi3 Hr4. apply Retry; auto. lia.
    - apply Retry; auto. lia.
  Qed.

  (* -- UniteEarly --------------------------------------------------- *)
  Lemma early_loop_safe f x y : C x y -> x < n -> y < n -> forall k t u v m, Inv m -> u < n -> v < n ->
    (eqv m x u /\ eqv m y v \/ eqv m x v /\ eqv m y u) ->
    safe n C Free k t (early_loop mx f x y u v) m (joined x y).
  Proof.
    intros HC Hx Hy. induction k as [k IH] using lt_wf_ind. intros t u v m Hi Hu Hv E0.
    rewrite (frob_eq (early_loop mx f x y u v)); simpl.
    assert (Fin : forall k1 m1 r, Inv m1 -> eqv m1 x y ->
       safe n C Free k1 t (compress_both f x y r) m1 (joined x y)).
    { intros k1 m1 r Hi1 E1. eapply safe_post; [|apply compress_both_safe with (S := fun m => eqv m x y); auto].
      - intros m2 r2 _ [H _]. exact H.
      - apply persistent_eqv. }
    destruct (Nat.eqb_spec u v) as [E|E].
    { subst v.
      assert (eqv m x y).
      { destruct E0 as [[E1 E2]|[E1 E2]]; ef E1; now apply eqv_sym. }
      pose proof (Fin k m mx Hi H) as HF. rewrite (frob_eq (compress_both f x y mx)) in HF. exact HF. }
    set (u' := if u <? v then v else u). set (v' := if u <? v then u else v).
    assert (Hlt : v' < u') by (unfold u', v'; destruct (Nat.ltb_spec u v); lia).
    assert (Hu' : u' < n) by (unfold u'; destruct (u <? v); auto).
    assert (Hv' : v' < n) by (unfold v'; destruct (u <? v); auto).
    assert (E0' : eqv m x u' /\ eqv m y v' \/ eqv m x v' /\ eqv m y u').
    { unfold u', v'; destruct (u <? v); tauto. }
    clearbody u' v'. clear E0 E Hu Hv u v.
    assert (E1 : exists a b, (a = x /\ b = y \/ a = y /\ b = x) /\ eqv m a u' /\ eqv m b v').
    { destruct E0' as [[H1 H2]|[H1 H2]]; [exists x, y|exists y, x]; tauto. }
    destruct E1 as (a & b & Hab & Ea & Eb). clear E0'.
    assert (Done : forall m', eqv m' a b -> eqv m' x y).
    { intros m' H. destruct Hab as [[-> ->]|[-> ->]]; auto. now apply eqv_sym. }
    assert (HCab : C a b) by (destruct Hab as [[-> ->]|[-> ->]]; auto).
    assert (HC2 : C u' v').
    { apply Ctrans with (y := a). { apply Csym. eapply eqv_C; eauto. }
      apply Ctrans with (y := b); auto. eapply eqv_C; eauto. }
    assert (Retry : forall k1 m1, k1 < k -> Inv m1 -> eqv m1 a u' -> eqv m1 b v' -> nonroot m1 u' ->
      safe n C Free k1 t (Rd u' (fun z => Rd z (fun w => Cas u' z w (fun _ => early_loop mx f x y w v')))) m1 (joined x y)).
    { clear m Hi Ea Eb. intros k1 m1 Hk1 Hi1 Ea Eb Hnr.
      apply safe_Rd; auto. intros k2 m2 Hk2 Hr2 Hi2. adv Hi1 Hr2.
      pose proof (par_le u' Hi2) as Hz. pose proof (eqv_par u' Hi2) as Ez.
      assert (Hz' : par m2 u' < u') by (unfold nonroot in Hnr; lia).
      set (z := par m2 u') in *. clearbody z.
      apply safe_Rd; [lia|]. intros k3 m3 Hk3 Hr3 Hi3. adv Hi2 Hr3.
      pose proof (par_le z Hi3) as Hw. pose proof (eqv_par z Hi3) as Ew.
      set (w := par m3 z) in *. clearbody w.
      assert (Euw : eqv m3 u' w) by (ef Ez; auto).
      assert (Next : forall k4 m4, k4 < k -> Inv m4 -> eqv m4 a u' -> eqv m4 b v' -> eqv m4 u' w ->
         safe n C Free k4 t (early_loop mx f x y w v') m4 (joined x y)).
      { intros k4 m4 Hk4 Hi4 Ea4 Eb4 Euw4. apply IH; auto; [lia|].
        assert (eqv m4 a w) by (ef Ea4; auto).
        destruct Hab as [[-> ->]|[-> ->]]; tauto. }
      assert (Hgw : forall m4, eqv m4 u' w -> guar C Free t m4 (set_par m4 u' w)).
      { intros m4 E4. apply guar_compress_set; auto; [lia|discriminate]. }
      apply safe_Cas; auto.
      - intros m4 Hr4 Hi4 E4. adv Hi3 Hr4. auto.
      - intros k4 m4 Hk4 Hr4 Hi4 E4. adv Hi3 Hr4. specialize (Hgw _ Euw).
        apply Next; try lia.
        + eapply guar_inv; eauto.
        + eapply guar_eqv; [exact Hi4|exact Hgw|auto].
        + eapply guar_eqv; [exact Hi4|exact Hgw|auto].
        + eapply guar_eqv; [exact Hi4|exact Hgw|auto].
      - intros k4 m4 Hk4 Hr4 Hi4 E4. adv Hi3 Hr4. apply Next; auto; lia. }
    apply safe_Rd; auto. intros k1 m1 Hk1 Hr1 Hi1. adv Hi Hr1.
    destruct (Nat.eqb_spec (par m1 u') u') as [E1|E1]; [|apply Retry; auto].
    apply safe_Cas; auto.
    - intros m2 Hr2 Hi2 E2. apply guar_hook_set; auto; try discriminate. intros [?|?]; discriminate.
    - intros k2 m2 Hk2 Hr2 Hi2 E2. adv Hi1 Hr2.
      assert (Hg : guar C Free t m2 (set_par m2 u' v')).
      { apply guar_hook_set; auto; try discriminate. intros [?|?]; discriminate. }
      assert (Hi3 : Inv (set_par m2 u' v')) by (eapply guar_inv; eauto).
      pose proof (hook_eqv Hi2 E2 Hlt) as He.
      assert (E5 : eqv (set_par m2 u' v') a u') by (eapply guar_eqv; [exact Hi2|exact Hg|auto]).
      assert (E6 : eqv (set_par m2 u' v') b v') by (eapply guar_eqv; [exact Hi2|exact Hg|auto]).
      apply Fin; auto. apply Done. ef E5. ef He. now apply eqv_sym.
    - intros k2 m2 Hk2 Hr2 Hi2 E2. adv Hi1 Hr2. apply Retry; auto. lia.
  Qed.

  (* -- link (k-out sampling) ---------------------------------------- *)
  Lemma link_loop_safe u0 v0 : C u0 v0 -> forall k t p1 p2 m, Inv m -> p1 < n -> p2 < n ->
    eqv m u0 p1 -> eqv m v0 p2 -> safe n C Free k t (link_loop p1 p2) m (joined u0 v0).
  Proof.
    intros HC.
    enough (G : forall k t p1 p2 m, Inv m -> p1 < n -> p2 < n ->
      (eqv m u0 p1 /\ eqv m v0 p2 \/ eqv m v0 p1 /\ eqv m u0 p2) ->
      safe n C Free k t (link_loop p1 p2) m (joined u0 v0)) by (intros; apply G; auto).
    induction k as [k IH] using lt_wf_ind. intros t p1 p2 m Hi H1 H2 E0.
    rewrite (frob_eq (link_loop p1 p2)); simpl.
    destruct (Nat.eqb_spec p1 p2) as [E|E].
    { subst p2. apply safe_Ret. intros m3 Hr3 Hi3.
      destruct E0 as [[E1 E2]|[E2 E1]]; adv Hi Hr3; ef E1; now apply eqv_sym. }
    assert (Hsw : exists a b, (a = u0 /\ b = v0 \/ a = v0 /\ b = u0) /\
       let high := if p2 <? p1 then p1 else p2 in
       let low := p1 + p2 - high in
       high < n /\ low < high /\ eqv m a high /\ eqv m b low).
    { cbv zeta. destruct (Nat.ltb_spec p2 p1).
      - replace (p1 + p2 - p1) with p2 by lia. destruct E0 as [[E1 E2]|[E2 E1]]; [exists u0, v0|exists v0, u0]; simpl; tauto.
      - replace (p1 + p2 - p2) with p1 by lia. assert (p1 < p2) by lia.
        destruct E0 as [[E1 E2]|[E2 E1]]; [exists v0, u0|exists u0, v0]; simpl; tauto. }
    cbv zeta in *. destruct Hsw as (a & b & Hab & Hh & Hlt & Ea & Eb).
    set (high := if p2 <? p1 then p1 else p2) in *.
    set (low := p1 + p2 - high) in *. clearbody high low.
    assert (Done : forall m', eqv m' a b -> eqv m' u0 v0).
    { intros m' H. destruct Hab as [[-> ->]|[-> ->]]; auto. now apply eqv_sym. }
    assert (HCab : C a b) by (destruct Hab as [[-> ->]|[-> ->]]; auto).
    assert (HC2 : C high low).
    { apply Ctrans with (y := a). { apply Csym. eapply eqv_C; eauto. }
      apply Ctrans with (y := b); auto. eapply eqv_C; eauto. }
    clear E0 E.
    assert (Again : forall k1 m1, k1 < k -> Inv m1 -> eqv m1 a high -> eqv m1 b low ->
      safe n C Free k1 t (Rd high (fun ph => Rd ph (fun q1 => Rd low (fun q2 => link_loop q1 q2)))) m1 (joined u0 v0)).
    { clear m Hi Ea Eb. intros k1 m1 Hk1 Hi1 Ea Eb.
      apply safe_Rd; auto. intros k2 m2 Hk2 Hr2 Hi2. adv Hi1 Hr2.
      pose proof (par_le high Hi2) as L1. pose proof (eqv_par high Hi2) as E1.
      set (ph := par m2 high) in *. clearbody ph.
      apply safe_Rd; [lia|]. intros k3 m3 Hk3 Hr3 Hi3. adv Hi2 Hr3.
      pose proof (par_le ph Hi3) as L2. pose proof (eqv_par ph Hi3) as E2.
      set (q1 := par m3 ph) in *. clearbody q1.
      apply safe_Rd; [lia|]. intros k4 m4 Hk4 Hr4 Hi4. adv Hi3 Hr4.
      pose proof (par_le low Hi4) as L3. pose proof (eqv_par low Hi4) as E3.
      set (q2 := par m4 low) in *. clearbody q2.
      assert (Ea4 : eqv m4 a q1) by (ef Ea; ef E1; auto).
      assert (Eb4 : eqv m4 b q2) by (ef Eb; auto).
      apply IH; auto; try lia. destruct Hab as [[-> ->]|[-> ->]]; tauto. }
    apply safe_Rd; auto. intros k1 m1 Hk1 Hr1 Hi1. adv Hi Hr1.
    pose proof (eqv_par high Hi1) as Ep.
    destruct (Nat.eqb_spec (par m1 high) low) as [El|El].
    { rewrite El in Ep. apply safe_Ret. intros m3 Hr3 Hi3. adv Hi1 Hr3. apply Done.
      ef Ea. ef Ep. now apply eqv_sym. }
    destruct (Nat.eqb_spec (par m1 high) high) as [E1|E1]; [|apply Again; auto].
    apply safe_Cas; auto.
    - intros m2 Hr2 Hi2 E2. apply guar_hook_set; auto; try discriminate. intros [?|?]; discriminate.
    - intros k2 m2 Hk2 Hr2 Hi2 E2. adv Hi1 Hr2.
      assert (Hg : guar C Free t m2 (set_par m2 high low)).
      { apply guar_hook_set; auto; try discriminate. intros [?|?]; discriminate. }
      assert (Hi3 : Inv (set_par m2 high low)) by (eapply guar_inv; eauto).
      pose proof (hook_eqv Hi2 E2 Hlt) as He.
      assert (E5 : eqv (set_par m2 high low) a high) by (eapply guar_eqv; [exact Hi2|exact Hg|auto]).
      assert (E6 : eqv (set_par m2 high low) b low) by (eapply guar_eqv; [exact Hi2|exact Hg|auto]).
      apply safe_Ret. intros m4 Hr4 Hi4. adv Hi3 Hr4. apply Done. ef E5. ef He. now apply eqv_sym.
    - intros k2 m2 Hk2 Hr2 Hi2 E2. adv Hi1 Hr2. apply Again; auto. lia.
  Qed.

  Lemma link_safe u v k t m : C u v -> u < n -> v < n -> Inv m ->
    safe n C Free k t (link u v) m (joined u v).
  Proof.
    intros HC Hu Hv Hi. unfold link.
    apply safe_Rd; auto. intros k1 m1 Hk1 Hr1 Hi1.
    pose proof (par_le u Hi1) as L1. pose proof (eqv_par u Hi1) as E1.
    set (p1 := par m1 u) in *. clearbody p1.
    apply safe_Rd; auto. intros k2 m2 Hk2 Hr2 Hi2. adv Hi1 Hr2.
    pose proof (par_le v Hi2) as L2. pose proof (eqv_par v Hi2) as E2.
    apply link_loop_safe; auto; lia.
  Qed.

  (* -- splices ------------------------------------------------------ *)
  Lemma splice_safe s md k t i x m : s <> SpliceAtomic -> Inv m -> i < n ->
    safe n C md k t (splice s i x) m (fun m' r => eqv m' i r /\ r < n).
  Proof.
    intros Hs Hi Hn. destruct s; simpl; try congruence.
    - apply split_one_safe; auto.
    - apply halve_one_safe; auto.
  Qed.

  (* -- UniteRemCAS -------------------------------------------------- *)
  Lemma rem_cas_safe f s x y : s <> SpliceAtomic -> C x y -> x < n -> y < n ->
    forall k t rx ry m, Inv m -> rx < n -> ry < n ->
    (eqv m x rx /\ eqv m y ry \/ eqv m x ry /\ eqv m y rx) ->
    safe n C Free k t (rem_cas_loop mx f s x y rx ry) m (joined x y).
  Proof.
    intros Hs HC Hx Hy. induction k as [k IH] using lt_wf_ind. intros t rx ry m Hi Hrx Hry E0.
    rewrite (frob_eq (rem_cas_loop mx f s x y rx ry)); simpl.
    assert (Fin : forall k1 m1 r, Inv m1 -> eqv m1 x y ->
       safe n C Free k1 t (compress_both f x y r) m1 (joined x y)).
    { intros k1 m1 r Hi1 E1. eapply safe_post; [|apply compress_both_safe with (S := fun m => eqv m x y); auto].
      - intros m2 r2 _ [H _]. exact H.
      - apply persistent_eqv. }
    assert (E1 : exists a b, (a = x /\ b = y \/ a = y /\ b = x) /\ eqv m a rx /\ eqv m b ry).
    { destruct E0 as [[H1 H2]|[H1 H2]]; [exists x, y|exists y, x]; tauto. }
    destruct E1 as (a & b & Hab & Ea & Eb). clear E0.
    assert (Done : forall m', eqv m' a b -> eqv m' x y).
    { intros m' H. destruct Hab as [[-> ->]|[-> ->]]; auto. now apply eqv_sym. }
    apply safe_Rd; auto. intros k1 m1 Hk1 Hr1 Hi1. adv Hi Hr1.
    pose proof (eqv_par rx Hi1) as Epx. set (pa := par m1 rx) in *. clearbody pa.
    apply safe_Rd; auto. intros k2 m2 Hk2 Hr2 Hi2. adv Hi1 Hr2.
    pose proof (eqv_par ry Hi2) as Epy. set (pb := par m2 ry) in *. clearbody pb.
    destruct (Nat.eqb_spec pa pb) as [E|E].
    { subst pb. apply safe_Ret. intros m3 Hr3 Hi3. adv Hi2 Hr3. apply Done.
      ef Ea. ef Epx. apply eqv_sym. ef Eb. exact Epy. }
    clear E Epx Epy pa pb.
    apply safe_Rd; auto. intros k3 m3 Hk3 Hr3 Hi3. adv Hi2 Hr3.
    pose proof (eqv_par ry Hi3) as Epy. pose proof (par_le ry Hi3) as Lpy.
    set (p_ry := par m3 ry) in *. clearbody p_ry.
    apply safe_Rd; auto. intros k4 m4 Hk4 Hr4 Hi4. adv Hi3 Hr4.
    pose proof (eqv_par rx Hi4) as Epx. pose proof (par_le rx Hi4) as Lpx.
    set (p_rx := par m4 rx) in *.
    (* after the optional swap *)
    assert (Hsw : exists a' b', (a' = x /\ b' = y \/ a' = y /\ b' = x) /\
       let rx' := if p_rx <? p_ry then ry else rx in
       let ry' := if p_rx <? p_ry then rx else ry in
       let p_ry' := if p_rx <? p_ry then p_rx else p_ry in
       rx' < n /\ ry' < n /\ eqv m4 a' rx' /\ eqv m4 b' ry' /\ eqv m4 ry' p_ry' /\ p_ry' <= rx').
    { destruct (Nat.ltb_spec p_rx p_ry) as [Hlt|Hge].
      - exists b, a. split; [tauto|]. simpl. repeat split; auto. lia.
      - exists a, b. split; [tauto|]. simpl. repeat split; auto. lia. }
    clearbody p_rx. clear Ea Eb Done Hab Epy Epx Lpy Lpx.
    cbv zeta in *.
    destruct Hsw as (a' & b' & Hab & Hrx' & Hry' & Ea & Eb & Epy & Hle).
    set (rx' := if p_rx <? p_ry then ry else rx) in *.
    set (ry' := if p_rx <? p_ry then rx else ry) in *.
    set (q' := if p_rx <? p_ry then p_rx else p_ry) in *.
    clearbody rx' ry' q'. clear a b p_rx p_ry Hrx Hry rx ry.
    assert (Done : forall m', eqv m' a' b' -> eqv m' x y).
    { intros m' H. destruct Hab as [[-> ->]|[-> ->]]; auto. now apply eqv_sym. }
    assert (HCab : C a' b') by (destruct Hab as [[-> ->]|[-> ->]]; auto).
    assert (HC2 : C rx' q').
    { apply Ctrans with (y := a'). { apply Csym. eapply eqv_C; eauto. }
      apply Ctrans with (y := b'); auto. eapply eqv_C; [| | |exact Hi4|]; eauto. eapply eqv_trans; eauto. }
    assert (Retry : forall k5 m5, k5 < k -> Inv m5 -> eqv m5 a' rx' -> eqv m5 b' ry' ->
       safe n C Free k5 t (Bind (splice s rx' ry') (fun z => rem_cas_loop mx f s x y z ry')) m5 (joined x y)).
    { intros k5 m5 Hk5 Hi5 Ea5 Eb5.
      eapply safe_Bind_frame with (S := fun m => eqv m a' rx' /\ eqv m b' ry'); auto.
      { apply persistent_and; apply persistent_eqv. }
      { intros k' _. apply splice_safe; auto. }
      intros k6 m6 z Hk6 Hi6 [Ez Hz] [Ea6 Eb6]. apply IH; auto; try lia.
      assert (eqv m6 a' z) by (ef Ea6; auto).
      destruct Hab as [[-> ->]|[-> ->]]; tauto. }
    apply safe_Rd; auto. intros k5 m5 Hk5 Hr5 Hi5. adv Hi4 Hr5.
    destruct (Nat.eqb_spec rx' (par m5 rx')) as [E|E]; [|apply Retry; auto; lia].
    destruct (Nat.eq_dec q' rx') as [->|Hne].
    - (* degenerate case: CAS(rx, rx, rx) *)
      apply safe_Cas; auto.
      + intros m6 Hr6 Hi6 E6. apply g_same; simpl; auto. intros z. unfold fset.
        destruct (Nat.eqb_spec z rx'); congruence.
      + intros k6 m6 Hk6 Hr6 Hi6 E6. adv Hi5 Hr6.
        assert (Hg : guar C Free t m6 (set_par m6 rx' rx')).
        { apply g_same; simpl; auto. intros z. unfold fset. destruct (Nat.eqb_spec z rx'); congruence. }
        assert (Hi7 : Inv (set_par m6 rx' rx')) by (eapply guar_inv; eauto).
        apply Fin; auto. eapply guar_eqv; [exact Hi6|exact Hg|].
        apply Done. ef Ea. apply eqv_sym. ef Eb. exact Epy.
      + intros k6 m6 Hk6 Hr6 Hi6 E6. adv Hi5 Hr6. apply Retry; auto; lia.
    - assert (Hlt : q' < rx') by lia.
      apply safe_Cas; auto.
      + intros m6 Hr6 Hi6 E6. apply guar_hook_set; auto; try discriminate. intros [?|?]; discriminate.
      + intros k6 m6 Hk6 Hr6 Hi6 E6. adv Hi5 Hr6.
        assert (Hg : guar C Free t m6 (set_par m6 rx' q')).
        { apply guar_hook_set; auto; try discriminate. intros [?|?]; discriminate. }
        assert (Hi7 : Inv (set_par m6 rx' q')) by (eapply guar_inv; eauto).
        pose proof (hook_eqv Hi6 E6 Hlt) as He.
        assert (E7 : eqv (set_par m6 rx' q') a' rx') by (eapply guar_eqv; [exact Hi6|exact Hg|auto]).
        assert (E8 : eqv (set_par m6 rx' q') b' ry') by (eapply guar_eqv; [exact Hi6|exact Hg|auto]).
        assert (E9 : eqv (set_par m6 rx' q') ry' q') by (eapply guar_eqv; [exact Hi6|exact Hg|auto]).
        apply Fin; auto. apply Done. ef E7. ef He. apply eqv_sym. ef E8. exact E9.
      + intros k6 m6 Hk6 Hr6 Hi6 E6. adv Hi5 Hr6. apply Retry; auto; lia.
  Qed.

  (* -- UniteRemLock ------------------------------------------------- *)
  Lemma rem_lock_safe f s x y : s <> SpliceAtomic -> C x y -> x < n -> y < n ->
    forall k t rx ry m, Inv m -> rx < n -> ry < n ->
    (eqv m x rx /\ eqv m y ry \/ eqv m x ry /\ eqv m y rx) ->
    safe n C Locked k t (rem_lock_loop mx f s x y rx ry) m (joined x y).
  Proof.
    intros Hs HC Hx Hy. induction k as [k IH] using lt_wf_ind. intros t rx ry m Hi Hrx Hry E0.
    rewrite (frob_eq (rem_lock_loop mx f s x y rx ry)); simpl.
    assert (Fin : forall k1 m1 r, Inv m1 -> eqv m1 x y ->
       safe n C Locked k1 t (compress_both f x y r) m1 (joined x y)).
    { intros k1 m1 r Hi1 E1. eapply safe_post; [|apply compress_both_safe with (S := fun m => eqv m x y); auto].
      - intros m2 r2 _ [H _]. exact H.
      - apply persistent_eqv. }
    assert (E1 : exists a b, (a = x /\ b = y \/ a = y /\ b = x) /\ eqv m a rx /\ eqv m b ry).
    { destruct E0 as [[H1 H2]|[H1 H2]]; [exists x, y|exists y, x]; tauto. }
    destruct E1 as (a & b & Hab & Ea & Eb). clear E0.
    assert (Done : forall m', eqv m' a b -> eqv m' x y).
    { intros m' H. destruct Hab as [[-> ->]|[-> ->]]; auto. now apply eqv_sym. }
    apply safe_Rd; auto. intros k1 m1 Hk1 Hr1 Hi1. adv Hi Hr1.
    pose proof (eqv_par rx Hi1) as Epx. set (pa := par m1 rx) in *. clearbody pa.
    apply safe_Rd; auto. intros k2 m2 Hk2 Hr2 Hi2. adv Hi1 Hr2.
    pose proof (eqv_par ry Hi2) as Epy. set (pb := par m2 ry) in *. clearbody pb.
    destruct (Nat.eqb_spec pa pb) as [E|E].
    { subst pb. apply Fin; auto. apply Done. ef Ea. ef Epx. apply eqv_sym. ef Eb. exact Epy. }
    clear E Epx Epy pa pb.
    apply safe_Rd; auto. intros k3 m3 Hk3 Hr3 Hi3. adv Hi2 Hr3.
    set (c := par m3 rx) in *. clearbody c.
    apply safe_Rd; auto. intros k4 m4 Hk4 Hr4 Hi4. adv Hi3 Hr4.
    set (d := par m4 ry) in *. clearbody d.
    assert (Hsw : exists a' b', (a' = x /\ b' = y \/ a' = y /\ b' = x) /\
       let rx' := if c <? d then ry else rx in
       let ry' := if c <? d then rx else ry in
       rx' < n /\ ry' < n /\ eqv m4 a' rx' /\ eqv m4 b' ry').
    { destruct (c <? d); [exists b, a|exists a, b]; (split; [tauto|]); simpl; auto. }
    clear Ea Eb Done Hab. cbv zeta in *.
    destruct Hsw as (a' & b' & Hab & Hrx' & Hry' & Ea & Eb).
    set (rx' := if c <? d then ry else rx) in *.
    set (ry' := if c <? d then rx else ry) in *.
    clearbody rx' ry'. clear a b c d Hrx Hry rx ry.
    assert (Done : forall m', eqv m' a' b' -> eqv m' x y).
    { intros m' H. destruct Hab as [[-> ->]|[-> ->]]; auto. now apply eqv_sym. }
    assert (HCab : C a' b') by (destruct Hab as [[-> ->]|[-> ->]]; auto).
    assert (Again : forall k5 m5, k5 < k -> Inv m5 -> eqv m5 a' rx' -> eqv m5 b' ry' ->
       safe n C Locked k5 t (rem_lock_loop mx f s x y rx' ry') m5 (joined x y)).
    { intros k5 m5 Hk5 Hi5 Ea5 Eb5. apply IH; auto. destruct Hab as [[-> ->]|[-> ->]]; tauto. }
    apply safe_Rd; auto. intros k5 m5 Hk5 Hr5 Hi5. adv Hi4 Hr5.
    destruct (Nat.eqb_spec rx' (par m5 rx')) as [E|E].
    2:{ eapply safe_Bind_frame with (S := fun m => eqv m a' rx' /\ eqv m b' ry'); auto.
        { apply persistent_and; apply persistent_eqv. }
        { intros k' _. apply splice_safe; auto. }
        intros k6 m6 z Hk6 Hi6 [Ez Hz] [Ea6 Eb6]. apply IH; auto; try lia.
        assert (eqv m6 a' z) by (ef Ea6; auto).
        destruct Hab as [[-> ->]|[-> ->]]; tauto. }
    apply safe_RdL; auto. intros k6 m6 Hk6 Hr6 Hi6. adv Hi5 Hr6.
    destruct (aux m6 rx') as [o|]; [apply Again; auto; lia|].
    apply safe_CasL; auto.
    2:{ intros k7 m7 Hk7 Hr7 Hi7. adv Hi6 Hr7. apply Again; auto; lia. }
    intros k7 m7 Hk7 Hr7 Hi7 Eaux. adv Hi6 Hr7.
    assert (Hg7 : guar C Locked t m7 (set_aux m7 rx' (Some t))) by now apply guar_acq.
    assert (Hi8 : Inv (set_aux m7 rx' (Some t))) by (eapply guar_inv; eauto).
    assert (Hown : aux (set_aux m7 rx' (Some t)) rx' = Some t) by (simpl; apply fset_same).
    assert (Ea8 : eqv (set_aux m7 rx' (Some t)) a' rx') by (eapply guar_eqv; [exact Hi7|exact Hg7|auto]).
    assert (Eb8 : eqv (set_aux m7 rx' (Some t)) b' ry') by (eapply guar_eqv; [exact Hi7|exact Hg7|auto]).
    set (m8 := set_aux m7 rx' (Some t)) in *. clearbody m8. clear Ea Eb Hg7 Eaux.
    assert (Clr : forall k9 m9, k9 < k -> Inv m9 -> aux m9 rx' = Some t -> eqv m9 a' rx' -> eqv m9 b' ry' ->
       safe n C Locked k9 t (ClrL rx' (rem_lock_loop mx f s x y rx' ry')) m9 (joined x y)).
    { intros k9 m9 Hk9 Hi9 Ho9 Ea9 Eb9.
      assert (Hgr : forall m', aux m' rx' = Some t -> guar C Locked t m' (set_aux m' rx' None)).
      { intros m' Ho'. apply g_rel with (a := rx'); simpl; auto. apply fset_same.
        intros. now apply fset_other. }
      apply safe_ClrL; auto.
      - intros m10 Hr10 Hi10. apply Hgr. eapply rely_lock; [| | |exact Hi9|exact Hr10|]; auto.
      - intros k10 m10 Hk10 Hr10 Hi10. adv Hi9 Hr10.
        assert (Ho10 : aux m10 rx' = Some t) by (eapply rely_lock; [| | |exact Hi9|exact Hr10|]; auto).
        specialize (Hgr _ Ho10). apply Again; try lia.
        + eapply guar_inv; eauto.
        + eapply guar_eqv; [exact Hi10|exact Hgr|auto].
        + eapply guar_eqv; [exact Hi10|exact Hgr|auto]. }
    apply safe_Rd; auto. intros k9 m9 Hk9 Hr9 Hi9. adv Hi8 Hr9.
    assert (Ho9 : aux m9 rx' = Some t) by (eapply rely_lock; [| | |exact Hi8|exact Hr9|]; auto).
    pose proof (eqv_par ry' Hi9) as Epy. set (py := par m9 ry') in *. clearbody py.
    apply safe_Rd; auto. intros k10 m10 Hk10 Hr10 Hi10. adv Hi9 Hr10.
    assert (Ho10 : aux m10 rx' = Some t) by (eapply rely_lock; [| | |exact Hi9|exact Hr10|]; auto).
    destruct (Nat.eqb_spec rx' (par m10 rx')) as [E10|E10]; simpl; [|apply Clr; auto; lia].
    destruct (Nat.ltb_spec py rx') as [Hlt|Hge]; [|apply Clr; auto; lia].
    assert (HC2 : C rx' py).
    { apply Ctrans with (y := a'). { apply Csym. eapply eqv_C; eauto. }
      apply Ctrans with (y := b'); auto. eapply eqv_C; [| | |exact Hi10|]; eauto. eapply eqv_trans; eauto. }
    assert (Hgh : forall m11, rely C Locked t m10 m11 -> Inv m11 ->
       aux m11 rx' = Some t /\ par m11 rx' = rx' /\ guar C Locked t m11 (set_par m11 rx' py)).
    { intros m11 Hr11 Hi11.
      destruct (@rely_owned C Crefl Csym Ctrans Locked t m10 m11 rx' Hi10 Hr11) as [Ho11 Hp11]; auto.
      repeat split; auto. apply guar_hook_set; auto; discriminate. }
    apply safe_Wr; auto.
    - intros m11 Hr11 Hi11. apply Hgh; auto.
    - intros k11 m11 Hk11 Hr11 Hi11. destruct (Hgh m11 Hr11 Hi11) as (Ho11 & Hp11 & Hg11).
      adv Hi10 Hr11. apply Clr; auto; try lia.
      + eapply guar_inv; eauto.
      + eapply guar_eqv; [exact Hi11|exact Hg11|auto].
      + eapply guar_eqv; [exact Hi11|exact Hg11|auto].
  Qed.

  (* -- UniteND ------------------------------------------------------ *)
  Lemma nd_safe f u0 v0 : C u0 v0 -> forall k t u v m, Inv m -> u < n -> v < n ->
    (eqv m u0 u /\ eqv m v0 v \/ eqv m u0 v /\ eqv m v0 u) ->
    safe n C Hooked k t (nd_loop mx f u v) m (joined u0 v0).
  Proof.
    intros HC. induction k as [k IH] using lt_wf_ind. intros t u v m Hi Hu Hv E0.
    rewrite (frob_eq (nd_loop mx f u v)); simpl.
    assert (E1 : exists a b, (a = u0 /\ b = v0 \/ a = v0 /\ b = u0) /\ eqv m a u /\ eqv m b v).
    { destruct E0 as [[H1 H2]|[H1 H2]]; [exists u0, v0|exists v0, u0]; tauto. }
    destruct E1 as (a & b & Hab & Ea & Eb). clear E0.
    eapply safe_Bind_frame with (S := fun m => eqv m a u /\ eqv m b v); auto.
    { apply persistent_and; apply persistent_eqv. }
    { intros k' _. apply find_safe; auto. }
    intros k1 m1 u1 Hk1 Hi1 (Eu1 & Hu1 & _ & Rt1) [Ea1 Eb1].
    assert (Ea2 : eqv m1 a u1) by (ef Ea1; auto).
    eapply safe_Bind_frame with (S := fun m => (eqv m a u1 /\ eqv m b v) /\ rootish Hooked m u1); auto.
    { apply persistent_and; [|apply persistent_rootish]. apply persistent_and; apply persistent_eqv. }
    { intros k' _. apply find_safe; auto. }
    intros k2 m2 v1 Hk2 Hi2 (Ev2 & Hv1 & _ & Rt2) [[Ea3 Eb3] Rt3].
    assert (Eb4 : eqv m2 b v1) by (ef Eb3; auto).
    clear Ea Eb Eu1 Ea1 Eb1 Ea2 Eb3 Ev2.
    destruct (Nat.eqb_spec u1 v1) as [E|E].
    { subst v1. apply safe_Ret. intros m3 Hr3 Hi3. adv Hi2 Hr3.
      destruct Hab as [[-> ->]|[-> ->]].
      - ef Ea3. now apply eqv_sym.
      - apply eqv_sym. ef Ea3. now apply eqv_sym. }
    assert (Hsw : exists a' b', (a' = u0 /\ b' = v0 \/ a' = v0 /\ b' = u0) /\
       let u' := if u1 <? v1 then v1 else u1 in
       let v' := if u1 <? v1 then u1 else v1 in
       u' < n /\ v' < n /\ v' < u' /\ eqv m2 a' u' /\ eqv m2 b' v' /\ rootish Hooked m2 u').
    { destruct (Nat.ltb_spec u1 v1).
      - exists b, a. split; [tauto|]. simpl. repeat split; auto; apply Rt2.
      - exists a, b. split; [tauto|]. simpl. repeat split; auto; try lia; apply Rt3. }
    cbv zeta in *. destruct Hsw as (a' & b' & Hab' & Hu' & Hv' & Hlt & Ea & Eb & Rt).
    set (u' := if u1 <? v1 then v1 else u1) in *.
    set (v' := if u1 <? v1 then u1 else v1) in *.
    clearbody u' v'. clear Rt1 Rt2 Rt3 Ea3 Eb4 E Hab a b.
    assert (HCab : C a' b') by (destruct Hab' as [[-> ->]|[-> ->]]; auto).
    assert (HC2 : C u' v').
    { apply Ctrans with (y := a'). { apply Csym. eapply eqv_C; eauto. }
      apply Ctrans with (y := b'); auto. eapply eqv_C; eauto. }
    assert (Again : forall k5 m5, k5 < k -> Inv m5 -> eqv m5 a' u' -> eqv m5 b' v' ->
       safe n C Hooked k5 t (nd_loop mx f u' v') m5 (joined u0 v0)).
    { intros k5 m5 Hk5 Hi5 Ea5 Eb5. apply IH; auto. destruct Hab' as [[-> ->]|[-> ->]]; tauto. }
    apply safe_RdL; auto. intros k3 m3 Hk3 Hr3 Hi3. adv Hi2 Hr3.
    destruct (aux m3 u') as [o|]; [apply Again; auto; lia|].
    apply safe_CasL; auto.
    2:{ intros k4 m4 Hk4 Hr4 Hi4. adv Hi3 Hr4. apply Again; auto; lia. }
    intros k4 m4 Hk4 Hr4 Hi4 Eaux. adv Hi3 Hr4.
    assert (Hroot : par m4 u' = u') by exact (proj1 Rt eq_refl Eaux).
    assert (Hg4 : guar C Hooked t m4 (set_aux m4 u' (Some t))) by now apply guar_acq.
    assert (Hi5 : Inv (set_aux m4 u' (Some t))) by (eapply guar_inv; eauto).
    assert (Hown : aux (set_aux m4 u' (Some t)) u' = Some t /\ par (set_aux m4 u' (Some t)) u' = u').
    { simpl. rewrite fset_same. auto. }
    assert (Ea5 : eqv (set_aux m4 u' (Some t)) a' u') by (eapply guar_eqv; [exact Hi4|exact Hg4|auto]).
    assert (Eb5 : eqv (set_aux m4 u' (Some t)) b' v') by (eapply guar_eqv; [exact Hi4|exact Hg4|auto]).
    set (m5 := set_aux m4 u' (Some t)) in *. clearbody m5.
    assert (Hgh : forall m6, rely C Hooked t m5 m6 -> Inv m6 ->
       par m6 u' = u' /\ guar C Hooked t m6 (set_par m6 u' v')).
    { intros m6 Hr6 Hi6.
      destruct (@rely_owned C Crefl Csym Ctrans Hooked t m5 m6 u' Hi5 Hr6) as [Ho6 Hp6]; auto.
      split; auto. apply guar_hook_set; auto; discriminate. }
    apply safe_Wr; auto.
    - intros m6 Hr6 Hi6. apply Hgh; auto.
    - intros k6 m6 Hk6 Hr6 Hi6. destruct (Hgh m6 Hr6 Hi6) as (Hp6 & Hg6). clear Ea Eb.
      adv Hi5 Hr6.
      assert (Hi7 : Inv (set_par m6 u' v')) by (eapply guar_inv; eauto).
      pose proof (hook_eqv Hi6 Hp6 Hlt) as He.
      assert (E7 : eqv (set_par m6 u' v') a' u') by (eapply guar_eqv; [exact Hi6|exact Hg6|auto]).
      assert (E8 : eqv (set_par m6 u' v') b' v') by (eapply guar_eqv; [exact Hi6|exact Hg6|auto]).
      apply safe_Ret. intros m8 Hr8 Hi8. adv Hi7 Hr8.
      assert (eqv m8 a' b') by (ef E7; ef He; now apply eqv_sym).
      destruct Hab' as [[-> ->]|[-> ->]]; auto. now apply eqv_sym.
  Qed.
End Unite.
