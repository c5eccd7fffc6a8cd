(* All find variants and the two path-compressing splice variants satisfy the
   same rely-guarantee specification. *)
From Verif Require Import Base UFSpec UFRoots UFModel UFLogic.

Definition frob (p : prog) : prog :=
  match p with
  | Ret r => Ret r | Rd a k => Rd a k | Wr a v k => Wr a v k | Cas a o w k => Cas a o w k
  | RdL a k => RdL a k | CasL a k => CasL a k | ClrL a k => ClrL a k
  | Bind q k => Bind q k | Fault => Fault
  end.
Lemma frob_eq p : p = frob p.
Proof. destruct p; reflexivity. Qed.

Section Find.
  Variable n : nat.
  Variable C : nat -> nat -> Prop.
  Hypothesis Crefl : forall x, C x x.
  Hypothesis Csym : forall x y, C x y -> C y x.
  Hypothesis Ctrans : forall x y z, C x y -> C y z -> C x z.
  Variable md : mode.

  Notation safe := (safe n C md).
  Notation rely := (rely C md).
  Notation guar := (guar C md).
  Notation Inv := (Inv C).
  Notation rootish := (rootish md).
  Notation rt m x := (root (par m) x).

  (* proof rules *)
  Lemma safe_Ret k t r m (Q : post) :
    (forall m1, rely t m m1 -> Inv m1 -> Q m1 r) -> safe k t (Ret r) m Q.
  Proof. destruct k; simpl; auto. Qed.

  Lemma safe_Rd k t a c m (Q : post) : a < n ->
    (forall k' m1, k' < k -> rely t m m1 -> Inv m1 -> safe k' t (c (par m1 a)) m1 Q) ->
    safe k t (Rd a c) m Q.
  Proof. destruct k; simpl; auto. Qed.

  Lemma safe_Wr k t a v c m (Q : post) : a < n ->
    (forall m1, rely t m m1 -> Inv m1 -> guar t m1 (set_par m1 a v)) ->
    (forall k' m1, k' < k -> rely t m m1 -> Inv m1 -> safe k' t c (set_par m1 a v) Q) ->
    safe k t (Wr a v c) m Q.
  Proof. destruct k; simpl; auto. Qed.

  Lemma safe_Cas k t a old new c m (Q : post) : a < n ->
    (forall m1, rely t m m1 -> Inv m1 -> par m1 a = old -> guar t m1 (set_par m1 a new)) ->
    (forall k' m1, k' < k -> rely t m m1 -> Inv m1 -> par m1 a = old ->
        safe k' t (c true) (set_par m1 a new) Q) ->
    (forall k' m1, k' < k -> rely t m m1 -> Inv m1 -> par m1 a <> old -> safe k' t (c false) m1 Q) ->
    safe k t (Cas a old new c) m Q.
  Proof.
    destruct k; [simpl; auto|]. intros Ha Hg Ht Hf m1 Hr Hi. simpl.
    split; [exact Ha|]. split.
    - intros E. split; [exact (Hg m1 Hr Hi E)|]. apply Ht; auto.
    - intros E. apply Hf; auto.
  Qed.

  Lemma safe_Bind k t q c m (Q' Q : post) :
    (forall k', k' < k -> safe k' t q m Q') ->
    (forall k' m1 r, k' < k -> Inv m1 -> Q' m1 r -> safe k' t (c r) m1 Q) ->
    safe k t (Bind q c) m Q.
  Proof.
    destruct k as [|k]; [simpl; auto|]. intros Hq Hc m1 Hr Hi.
    eapply safe_rely; [exact Hr|]. eapply safe_post; [|apply Hq; lia].
    intros m2 r Hi2 HQ. cbn beta. apply Hc; auto.
  Qed.

  (* transport of facts along interference *)
  Ltac adv Hi Hr :=
    match type of Hr with
    | UFLogic.rely _ _ ?t ?m ?m1 =>
        repeat match goal with
        | H : eqv m _ _ |- _ => apply (rely_eqv Crefl Csym Ctrans Hi Hr) in H
        | H : nonroot m _ |- _ => apply (rely_nonroot Crefl Csym Ctrans Hi Hr) in H
        | H : UFLogic.rootish _ m _ |- _ => apply (rely_rootish Crefl Csym Ctrans Hi Hr) in H
        end
    end.

  Lemma eqv_par m x : Inv m -> eqv m x (par m x).
  Proof. intros [H _]. unfold eqv. symmetry. now apply root_par. Qed.
  Lemma eqv_trans m x y z : eqv m x y -> eqv m y z -> eqv m x z.
  Proof. unfold eqv. congruence. Qed.
  Lemma eqv_sym m x y : eqv m x y -> eqv m y x.
  Proof. unfold eqv. congruence. Qed.
  Lemma eqv_refl m x : eqv m x x.
  Proof. reflexivity. Qed.
  Lemma eqv_C m x y : Inv m -> eqv m x y -> C x y.
  Proof.
    intros Hi E. unfold eqv in E. apply Ctrans with (y := rt m x).
    - eapply C_root; eauto.
    - rewrite E. apply Csym. eapply C_root; eauto.
  Qed.
  Lemma par_le m x : Inv m -> par m x <= x.
  Proof. intros [H _]. apply H. Qed.

  (* a vertex with a smaller vertex in its tree is not a root *)
  Lemma smaller_nonroot m i j : Inv m -> eqv m i j -> j < i -> nonroot m i.
  Proof.
    intros [H _] E Hj Hp. unfold eqv in E. rewrite (root_self (par m) Hp) in E.
    pose proof (root_le j H). lia.
  Qed.

  Lemma root_rootish m x : par m x = x -> rootish m x.
  Proof. intros E; split; auto. Qed.

  Lemma upd1_set m a v : upd1 (par m) (par (set_par m a v)) a v.
  Proof. split; simpl. apply fset_same. intros. now apply fset_other. Qed.

  (* compress step *)
  Lemma guar_compress_set t m i j : j < i -> eqv m i j ->
    (md = Label -> par m i = rt m i -> j = rt m i) -> guar t m (set_par m i j).
  Proof.
    intros Hj E HL. eapply g_compress with (i := i) (j := j); auto.
    apply upd1_set.
  Qed.

  (* a value different from its own parent is not the root *)
  Definition find_post (i : nat) : post :=
    fun m r => eqv m i r /\ r < n /\ r <= i /\ rootish m r.

  Lemma find_post_rely t i m m1 r : Inv m -> rely t m m1 -> find_post i m r -> find_post i m1 r.
  Proof. intros Hi Hr (H1 & H2 & H3 & H4). adv Hi Hr. repeat split; auto; apply H4. Qed.

  Ltac gst := match goal with
    | Hg : UFLogic.guar _ _ _ ?m ?m', Hi : UFLogic.Inv _ ?m |- eqv ?m' _ _ =>
        eapply guar_eqv; [exact Hi|exact Hg|eauto]
    | Hg : UFLogic.guar _ _ _ ?m ?m', Hi : UFLogic.Inv _ ?m |- UFLogic.rootish _ ?m' _ =>
        eapply guar_rootish; [exact Hi|exact Hg|eauto]
    | Hg : UFLogic.guar _ _ _ ?m ?m', Hi : UFLogic.Inv _ ?m |- par ?m' _ = root (par ?m') _ =>
        eapply guar_flat; [eassumption|exact Hi|exact Hg|eauto]
    end.
  Ltac fpr := match goal with
    | Hr : UFLogic.rely _ _ _ ?m ?m2, Hi : UFLogic.Inv _ ?m |- find_post _ ?m2 _ => apply (find_post_rely Hi Hr)
    end.

  Lemma find_naive_safe i0 : forall k t i m, Inv m -> i < n -> i <= i0 -> eqv m i0 i ->
    safe k t (find_naive i) m (find_post i0).
  Proof.
    induction k as [k IH] using lt_wf_ind. intros t i m Hi Hn Hle He.
    rewrite (frob_eq (find_naive i)); simpl.
    apply safe_Rd; auto. intros k1 m1 Hk1 Hr1 Hi1. adv Hi Hr1.
    destruct (Nat.eqb_spec i (par m1 i)) as [E|E].
    - apply safe_Ret. intros m2 Hr2 Hi2.
      assert (Hroot : rootish m1 i) by (apply root_rootish; auto).
      fpr. repeat split; auto; apply Hroot.
    - apply safe_Rd; auto. intros k2 m2 Hk2 Hr2 Hi2. adv Hi1 Hr2.
      pose proof (par_le i Hi2).
      apply IH; auto; try lia. eapply eqv_trans; eauto. now apply eqv_par.
  Qed.

  (* in the final pass there are no hooks: j stays the root *)
  Lemma label_root_of m i j : Inv m -> eqv m i j -> rootish m j -> md = Label -> rt m i = j.
  Proof.
    intros Hi E [_ Hj] Em. unfold eqv in E. rewrite E. apply root_self. auto.
  Qed.

  Definition compress_post (i : nat) : post :=
    fun m r => find_post i m r /\ (md = Label -> par m i = rt m i).

  Lemma find_compress_loop2_safe i0 : forall k t i j m, Inv m -> i < n -> j < n -> j <= i ->
    eqv m i j -> eqv m i0 j -> j <= i0 -> rootish m j ->
    (i = i0 \/ (md = Label -> par m i0 = rt m i0)) ->
    safe k t (find_compress_loop2 i j) m (compress_post i0).
  Proof.
    induction k as [k IH] using lt_wf_ind. intros t i j m Hi Hn Hjn Hji He He0 Hj0 Hrt Hfl.
    rewrite (frob_eq (find_compress_loop2 i j)); simpl.
    apply safe_Rd; auto. intros k1 m1 Hk1 Hr1 Hi1. adv Hi Hr1.
    assert (Hfl1 : i = i0 \/ (md = Label -> par m1 i0 = rt m1 i0)).
    { destruct Hfl as [?|Hfl]; auto. right. intros Em. apply (rely_flat Crefl Csym Ctrans _ Em Hi Hr1); auto. } clear Hfl.
    destruct (Nat.ltb_spec j (par m1 i)) as [Hlt|Hge].
    - assert (Hpi : par m1 i <= i) by (apply par_le; auto).
      assert (Hji' : j < i) by lia.
      assert (Het : eqv m1 (par m1 i) j).
      { eapply eqv_trans; [|exact He]. apply eqv_sym. now apply eqv_par. }
      set (tmp := par m1 i) in *.
      apply safe_Wr; auto.
      + intros m2 Hr2 Hi2. adv Hi1 Hr2. apply guar_compress_set; auto.
        intros Em Ef. symmetry. apply label_root_of; auto.
      + intros k2 m2 Hk2 Hr2 Hi2. adv Hi1 Hr2.
        assert (Hg : guar t m2 (set_par m2 i j)).
        { apply guar_compress_set; auto. intros Em Ef. symmetry. apply label_root_of; auto. }
        assert (Hi3 : Inv (set_par m2 i j)) by (eapply guar_inv; eauto).
        apply IH; auto; try lia.
        * gst.
        * gst.
        * gst.
        * right. intros Em. destruct Hfl1 as [->|Hfl1].
          -- simpl. rewrite fset_same. assert (E1 : eqv (set_par m2 i0 j) i0 j) by (gst).
             symmetry. apply (@label_root_of (set_par m2 i0 j)); auto. gst.
          -- gst. apply (rely_flat Crefl Csym Ctrans _ Em Hi1 Hr2); auto.
    - apply safe_Ret. intros m2 Hr2 Hi2.
      split.
      + fpr. repeat split; auto; apply Hrt.
      + intros Em. apply (rely_flat Crefl Csym Ctrans _ Em Hi1 Hr2). destruct Hfl1 as [->|Hfl1]; auto.
        rewrite (label_root_of Hi1 He Hrt Em).
        assert (Het : eqv m1 (par m1 i0) j).
        { eapply eqv_trans; [|exact He]. apply eqv_sym. now apply eqv_par. }
        pose proof (label_root_of Hi1 Het Hrt Em) as E2.
        pose proof (root_le (par m1 i0) (proj1 Hi1)). lia.
  Qed.

  Lemma find_compress_loop1_safe i0 : forall k t j m, Inv m -> i0 < n -> j < n -> j <= i0 ->
    eqv m i0 j -> safe k t (find_compress_loop1 i0 j) m (compress_post i0).
  Proof.
    induction k as [k IH] using lt_wf_ind. intros t j m Hi Hn Hjn Hji He.
    rewrite (frob_eq (find_compress_loop1 i0 j)); simpl.
    apply safe_Rd; auto. intros k1 m1 Hk1 Hr1 Hi1. adv Hi Hr1.
    assert (Hpj : par m1 j <= j) by (apply par_le; auto).
    assert (Het : eqv m1 i0 (par m1 j)).
    { eapply eqv_trans; [eauto|]. now apply eqv_par. }
    set (j' := par m1 j) in *. clearbody j'.
    apply safe_Rd; [lia|]. intros k2 m2 Hk2 Hr2 Hi2. adv Hi1 Hr2.
    destruct (Nat.eqb_spec (par m2 j') j') as [E|E].
    - apply find_compress_loop2_safe; auto; try lia. apply root_rootish; auto.
    - apply IH; auto; lia.
  Qed.

  Lemma find_compress_safe k t i m : Inv m -> i < n ->
    safe k t (find_compress i) m (compress_post i).
  Proof.
    intros Hi Hn. unfold find_compress.
    apply safe_Rd; auto. intros k1 m1 Hk1 Hr1 Hi1.
    destruct (Nat.eqb_spec (par m1 i) i) as [E|E].
    - assert (Hroot : rootish m1 i) by (apply root_rootish; auto).
      apply safe_Ret. intros m2 Hr2 Hi2. split.
      + fpr. repeat split; auto; apply Hroot.
      + intros Em. apply (rely_flat Crefl Csym Ctrans _ Em Hi1 Hr2). rewrite (root_self (par m1) E). auto.
    - apply find_compress_loop1_safe; auto. apply eqv_refl.
  Qed.

  Lemma find_compress_atomic_loop2_safe i0 : forall k t i j m, Inv m -> i < n -> j < n -> j <= i ->
    eqv m i j -> eqv m i0 j -> j <= i0 -> rootish m j ->
    safe k t (find_compress_atomic_loop2 i j) m (find_post i0).
  Proof.
    induction k as [k IH] using lt_wf_ind. intros t i j m Hi Hn Hjn Hji He He0 Hj0 Hrt.
    rewrite (frob_eq (find_compress_atomic_loop2 i j)); simpl.
    apply safe_Rd; auto. intros k1 m1 Hk1 Hr1 Hi1. adv Hi Hr1.
    assert (Hret : forall m2, rely t m1 m2 -> Inv m2 -> find_post i0 m2 j).
    { intros m2 Hr2 Hi2. fpr. repeat split; auto; apply Hrt. }
    destruct (Nat.ltb_spec j (par m1 i)) as [Hlt|Hge].
    - assert (Hpi : par m1 i <= i) by (apply par_le; auto).
      assert (Hji' : j < i) by lia.
      assert (Het : eqv m1 (par m1 i) j).
      { eapply eqv_trans; [|exact He]. apply eqv_sym. now apply eqv_par. }
      set (tmp := par m1 i) in *. clearbody tmp.
      apply safe_Cas; auto.
      + intros m2 Hr2 Hi2 _. adv Hi1 Hr2. apply guar_compress_set; auto.
        intros Em Ef. symmetry. apply label_root_of; auto.
      + intros k2 m2 Hk2 Hr2 Hi2 _. clear Hret. adv Hi1 Hr2.
        assert (Hg : guar t m2 (set_par m2 i j)).
        { apply guar_compress_set; auto. intros Em Ef. symmetry. apply label_root_of; auto. }
        assert (Hi3 : Inv (set_par m2 i j)) by (eapply guar_inv; eauto).
        apply IH; auto; try lia.
        * gst.
        * gst.
        * gst.
      + intros k2 m2 Hk2 Hr2 Hi2 _. apply safe_Ret. intros m3 Hr3 Hi3.
        apply (find_post_rely Hi2 Hr3). auto.
    - apply safe_Ret. auto.
  Qed.

  Lemma find_compress_atomic_loop1_safe i0 : forall k t j m, Inv m -> i0 < n -> j < n -> j <= i0 ->
    eqv m i0 j -> safe k t (find_compress_atomic_loop1 i0 j) m (find_post i0).
  Proof.
    induction k as [k IH] using lt_wf_ind. intros t j m Hi Hn Hjn Hji He.
    rewrite (frob_eq (find_compress_atomic_loop1 i0 j)); simpl.
    apply safe_Rd; auto. intros k1 m1 Hk1 Hr1 Hi1. adv Hi Hr1.
    assert (Hpj : par m1 j <= j) by (apply par_le; auto).
    assert (Het : eqv m1 i0 (par m1 j)).
    { eapply eqv_trans; [eauto|]. now apply eqv_par. }
    set (j' := par m1 j) in *. clearbody j'.
    apply safe_Rd; [lia|]. intros k2 m2 Hk2 Hr2 Hi2. adv Hi1 Hr2.
    destruct (Nat.eqb_spec (par m2 j') j') as [E|E].
    - apply find_compress_atomic_loop2_safe; auto; try lia. apply root_rootish; auto.
    - apply IH; auto; lia.
  Qed.

  Lemma find_compress_atomic_safe k t i m : Inv m -> i < n ->
    safe k t (find_compress_atomic i) m (find_post i).
  Proof.
    intros Hi Hn. unfold find_compress_atomic.
    apply safe_Rd; auto. intros k1 m1 Hk1 Hr1 Hi1.
    destruct (Nat.eqb_spec (par m1 i) i) as [E|E].
    - assert (Hroot : rootish m1 i) by (apply root_rootish; auto).
      apply safe_Ret. intros m2 Hr2 Hi2.
      fpr. repeat split; auto; apply Hroot.
    - apply find_compress_atomic_loop1_safe; auto. apply eqv_refl.
  Qed.

  (* the common part of split/halve: v = parents[i], w = parents[v], v <> w, CAS(i, v, w) *)
  Lemma guar_split t m i v w : Inv m -> par m i = v -> nonroot m v -> w < v -> eqv m i w ->
    guar t m (set_par m i w).
  Proof.
    intros Hi E Hv Hw He. pose proof (par_le i Hi).
    apply guar_compress_set; auto; try lia.
    intros Em Ef. exfalso. apply Hv. rewrite E in Ef. rewrite Ef. apply root_fix, Hi.
  Qed.

  Lemma find_split_safe i0 : forall k t i m, Inv m -> i < n -> i <= i0 -> eqv m i0 i ->
    safe k t (find_atomic_split i) m (find_post i0).
  Proof.
    induction k as [k IH] using lt_wf_ind. intros t i m Hi Hn Hle He.
    rewrite (frob_eq (find_atomic_split i)); simpl.
    apply safe_Rd; auto. intros k1 m1 Hk1 Hr1 Hi1. adv Hi Hr1.
    pose proof (par_le i Hi1) as Hpi. pose proof (eqv_par i Hi1) as Hev.
    set (v := par m1 i) in *. clearbody v.
    apply safe_Rd; [lia|]. intros k2 m2 Hk2 Hr2 Hi2. adv Hi1 Hr2.
    pose proof (par_le v Hi2) as Hpv. pose proof (eqv_par v Hi2) as Hew.
    destruct (Nat.eqb_spec v (par m2 v)) as [E|E].
    - assert (Hroot : rootish m2 v) by (apply root_rootish; auto).
      apply safe_Ret. intros m3 Hr3 Hi3.
      fpr. repeat split; try lia; try apply Hroot.
      eapply eqv_trans; eauto.
    - assert (Hnv : nonroot m2 v) by (unfold nonroot; congruence).
      set (w := par m2 v) in *. assert (Hwv : w < v) by lia. clearbody w.
      apply safe_Cas; auto.
      + intros m3 Hr3 Hi3 E3. adv Hi2 Hr3. eapply guar_split; eauto. eapply eqv_trans; eauto.
      + intros k3 m3 Hk3 Hr3 Hi3 E3. adv Hi2 Hr3.
        assert (Hg : guar t m3 (set_par m3 i w)) by (eapply guar_split; eauto; eapply eqv_trans; eauto).
        apply IH; try lia.
        * eapply guar_inv; eauto.
        * gst. eapply eqv_trans; eauto.
      + intros k3 m3 Hk3 Hr3 Hi3 E3. adv Hi2 Hr3. apply IH; try lia; auto. eapply eqv_trans; eauto.
  Qed.

  Lemma find_halve_safe i0 : forall k t i m, Inv m -> i < n -> i <= i0 -> eqv m i0 i ->
    safe k t (find_atomic_halve i) m (find_post i0).
  Proof.
    induction k as [k IH] using lt_wf_ind. intros t i m Hi Hn Hle He.
    rewrite (frob_eq (find_atomic_halve i)); simpl.
    apply safe_Rd; auto. intros k1 m1 Hk1 Hr1 Hi1. adv Hi Hr1.
    pose proof (par_le i Hi1) as Hpi. pose proof (eqv_par i Hi1) as Hev.
    set (v := par m1 i) in *. clearbody v.
    apply safe_Rd; [lia|]. intros k2 m2 Hk2 Hr2 Hi2. adv Hi1 Hr2.
    pose proof (par_le v Hi2) as Hpv. pose proof (eqv_par v Hi2) as Hew.
    destruct (Nat.eqb_spec v (par m2 v)) as [E|E].
    - assert (Hroot : rootish m2 v) by (apply root_rootish; auto).
      apply safe_Ret. intros m3 Hr3 Hi3.
      fpr. repeat split; try lia; try apply Hroot.
      eapply eqv_trans; eauto.
    - assert (Hnv : nonroot m2 v) by (unfold nonroot; congruence).
      set (w := par m2 v) in *. assert (Hwv : w < v) by lia. clearbody w.
      assert (Hrest : forall k3 m3, k3 < k -> Inv m3 -> eqv m3 i0 i ->
        safe k3 t (Rd i (fun i' => find_atomic_halve i')) m3 (find_post i0)).
      { intros k3 m3 Hk3 Hi3 He3. apply safe_Rd; auto. intros k4 m4 Hk4 Hr4 Hi4. adv Hi3 Hr4.
        pose proof (par_le i Hi4). apply IH; auto; try lia.
        eapply eqv_trans; eauto. now apply eqv_par. }
      apply safe_Cas; auto.
      + intros m3 Hr3 Hi3 E3. adv Hi2 Hr3. eapply guar_split; eauto. eapply eqv_trans; eauto.
      + intros k3 m3 Hk3 Hr3 Hi3 E3. adv Hi2 Hr3.
        assert (Hg : guar t m3 (set_par m3 i w)) by (eapply guar_split; eauto; eapply eqv_trans; eauto).
        apply Hrest; try lia.
        * eapply guar_inv; eauto.
        * gst.
      + intros k3 m3 Hk3 Hr3 Hi3 E3. adv Hi2 Hr3. apply Hrest; auto; lia.
  Qed.

  Lemma find_safe f k t i m : Inv m -> i < n -> safe k t (find f i) m (find_post i).
  Proof.
    intros Hi Hn. destruct f; simpl.
    - apply find_naive_safe; auto. apply eqv_refl.
    - eapply safe_post; [|apply find_compress_safe; auto]. intros m' r _ [H _]. exact H.
    - apply find_compress_atomic_safe; auto.
    - apply find_split_safe; auto. apply eqv_refl.
    - apply find_halve_safe; auto. apply eqv_refl.
  Qed.

  (* splices (other than splice_atomic) *)
  Lemma split_one_safe k t i x m : Inv m -> i < n ->
    safe k t (split_atomic_one i x) m (fun m' r => eqv m' i r /\ r < n).
  Proof.
    intros Hi Hn. unfold split_atomic_one.
    apply safe_Rd; auto. intros k1 m1 Hk1 Hr1 Hi1.
    pose proof (par_le i Hi1) as Hpi. pose proof (eqv_par i Hi1) as Hev.
    set (v := par m1 i) in *. clearbody v.
    apply safe_Rd; [lia|]. intros k2 m2 Hk2 Hr2 Hi2. adv Hi1 Hr2.
    pose proof (par_le v Hi2) as Hpv. pose proof (eqv_par v Hi2) as Hew.
    destruct (Nat.eqb_spec v (par m2 v)) as [E|E].
    - apply safe_Ret. intros m3 Hr3 Hi3. adv Hi2 Hr3. split; auto; lia.
    - assert (Hnv : nonroot m2 v) by (unfold nonroot; congruence).
      set (w := par m2 v) in *. assert (Hwv : w < v) by lia. clearbody w.
      apply safe_Cas; auto.
      + intros m3 Hr3 Hi3 E3. adv Hi2 Hr3. eapply guar_split; eauto. eapply eqv_trans; eauto.
      + intros k3 m3 Hk3 Hr3 Hi3 E3. adv Hi2 Hr3.
        assert (Hg : guar t m3 (set_par m3 i w)) by (eapply guar_split; eauto; eapply eqv_trans; eauto).
        assert (Hi4 : Inv (set_par m3 i w)) by (eapply guar_inv; eauto).
        assert (He4 : eqv (set_par m3 i w) i v) by (gst).
        apply safe_Ret. intros m5 Hr5 Hi5. adv Hi4 Hr5. split; auto; lia.
      + intros k3 m3 Hk3 Hr3 Hi3 E3. apply safe_Ret. intros m4 Hr4 Hi4.
        adv Hi2 Hr3. adv Hi3 Hr4. split; auto; lia.
  Qed.

  Lemma halve_one_safe k t i x m : Inv m -> i < n ->
    safe k t (halve_atomic_one i x) m (fun m' r => eqv m' i r /\ r < n).
  Proof.
    intros Hi Hn. unfold halve_atomic_one.
    apply safe_Rd; auto. intros k1 m1 Hk1 Hr1 Hi1.
    pose proof (par_le i Hi1) as Hpi. pose proof (eqv_par i Hi1) as Hev.
    set (v := par m1 i) in *. clearbody v.
    apply safe_Rd; [lia|]. intros k2 m2 Hk2 Hr2 Hi2. adv Hi1 Hr2.
    pose proof (par_le v Hi2) as Hpv. pose proof (eqv_par v Hi2) as Hew.
    destruct (Nat.eqb_spec v (par m2 v)) as [E|E].
    - apply safe_Ret. intros m3 Hr3 Hi3. adv Hi2 Hr3. split; auto; lia.
    - assert (Hnv : nonroot m2 v) by (unfold nonroot; congruence).
      set (w := par m2 v) in *. assert (Hwv : w < v) by lia. clearbody w.
      assert (Heiw : eqv m2 i w) by (eapply eqv_trans; eauto).
      apply safe_Cas; auto.
      + intros m3 Hr3 Hi3 E3. adv Hi2 Hr3. eapply guar_split; eauto.
      + intros k3 m3 Hk3 Hr3 Hi3 E3. adv Hi2 Hr3.
        assert (Hg : guar t m3 (set_par m3 i w)) by (eapply guar_split; eauto).
        assert (Hi4 : Inv (set_par m3 i w)) by (eapply guar_inv; eauto).
        assert (He4 : eqv (set_par m3 i w) i w) by (gst).
        apply safe_Ret. intros m5 Hr5 Hi5. adv Hi4 Hr5. split; auto; lia.
      + intros k3 m3 Hk3 Hr3 Hi3 E3. apply safe_Ret. intros m4 Hr4 Hi4.
        adv Hi2 Hr3. adv Hi3 Hr4. split; auto; lia.
  Qed.
End Find.

Ltac adv Hi Hr :=
  match type of Hr with
  | UFLogic.rely _ _ ?t ?m ?m1 =>
      repeat match goal with
      | Crefl : (forall x, ?C x x), Csym : (forall x y, ?C x y -> ?C y x),
        Ctrans : (forall x y z, ?C x y -> ?C y z -> ?C x z), H : eqv m _ _ |- _ =>
          apply (rely_eqv Crefl Csym Ctrans Hi Hr) in H
      | Crefl : (forall x, ?C x x), Csym : (forall x y, ?C x y -> ?C y x),
        Ctrans : (forall x y z, ?C x y -> ?C y z -> ?C x z), H : nonroot m _ |- _ =>
          apply (rely_nonroot Crefl Csym Ctrans Hi Hr) in H
      | Crefl : (forall x, ?C x x), Csym : (forall x y, ?C x y -> ?C y x),
        Ctrans : (forall x y z, ?C x y -> ?C y z -> ?C x z), H : UFLogic.rootish _ m _ |- _ =>
          apply (rely_rootish Crefl Csym Ctrans Hi Hr) in H
      end
  end.
