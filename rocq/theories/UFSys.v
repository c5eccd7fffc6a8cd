(* System-level theorems about the union-find programs. *)
From Verif Require Import Base UFSpec UFRoots UFModel UFLogic UFFind UFUnite.

(* strategies covered by the positive theorems: every one except
   splice_atomic, see [splice_atomic] in UFProps *)
Definition no_splice_atomic (o : unite_option) : Prop :=
  o <> URemCAS SpliceAtomic /\ o <> URemLock SpliceAtomic.

Definition mode_of (o : unite_option) : mode :=
  match o with UND => Hooked | URemLock _ => Locked | _ => Free end.

(* the edges inserted by the updates whose index satisfies a test *)
Definition edge_of (x : update) : list (nat * nat) :=
  match x with Insert u v => [(u, v)] | Query _ _ => [] end.
Definition inserted (ups : list update) : list (nat * nat) := flat_map edge_of ups.

(* the updates that took at least one step *)
Definition started (sched : list nat) (ups : list update) : list update :=
  flat_map (fun t => match nth_error ups t with Some x => [x] | None => [] end) sched.

Definition endpoints (x : update) : nat * nat := match x with Insert u v | Query u v => (u, v) end.
Definition in_range (n : nat) (ups : list update) : Prop :=
  forall x, In x ups -> fst (endpoints x) < n /\ snd (endpoints x) < n.

Section Equiv.
  Variables (P0 : nat -> nat) (E : list (nat * nat)).
  Lemma cf_refl x : connected_from P0 E x x.
  Proof. apply rst_refl. Qed.
  Lemma cf_sym x y : connected_from P0 E x y -> connected_from P0 E y x.
  Proof. apply rst_sym. Qed.
  Lemma cf_trans x y z : connected_from P0 E x y -> connected_from P0 E y z -> connected_from P0 E x z.
  Proof. apply rst_trans. Qed.
  Lemma cf_P0 x : connected_from P0 E x (P0 x).
  Proof. apply rst_step. auto. Qed.
  Lemma cf_edge u v : In (u, v) E -> connected_from P0 E u v.
  Proof. intros. apply rst_step. auto. Qed.
End Equiv.

Section Sys.
  Variable n mx : nat.
  Variable f : find_option.

  Section Run.
  Variable o : unite_option.
  Hypothesis Ho : no_splice_atomic o.

  Definition upd_post (x : update) : post :=
    match x with Insert u v => joined u v | Query _ _ => fun _ _ => True end.

  Lemma update_safe (C : nat -> nat -> Prop) (Crefl : forall x, C x x) (Csym : forall x y, C x y -> C y x)
    (Ctrans : forall x y z, C x y -> C y z -> C x z) x k t m :
    fst (endpoints x) < n -> snd (endpoints x) < n ->
    (forall u v, x = Insert u v -> C u v) -> Inv C m ->
    safe n C (mode_of o) k t (run_update mx f o x) m (upd_post x).
  Proof.
    intros Hu Hv HC Hi. destruct x as [u v|u v]; simpl in *.
    - specialize (HC u v eq_refl). destruct Ho as [H1 H2]. destruct o as [| | | | |s|s]; simpl.
      + apply unite_loop_safe; auto; apply eqv_refl.
      + apply early_loop_safe; auto. left. split; apply eqv_refl.
      + apply nd_safe; auto. left. split; apply eqv_refl.
      + apply unite_impl_safe; auto; apply eqv_refl.
      + apply link_safe; auto.
      + apply rem_cas_safe; auto; [congruence|]. left. split; apply eqv_refl.
      + apply rem_lock_safe; auto; [congruence|]. left. split; apply eqv_refl.
    - eapply safe_Bind. { intros k' _. apply find_safe; auto. }
      intros k1 m1 r1 _ Hi1 _. eapply safe_Bind. { intros k' _. apply find_safe; auto. }
      intros k2 m2 r2 _ Hi2 _. apply safe_Ret. auto.
  Qed.

  Definition the_post (ups : list update) (t : nat) : post :=
    match nth_error ups t with Some x => upd_post x | None => fun _ _ => True end.

  Lemma run_safe (act : nat -> Prop) P0 E ups sched k :
    (forall x, P0 x <= x) -> in_range n ups ->
    (forall t u v, act t -> nth_error ups t = Some (Insert u v) -> In (u, v) E) ->
    (forall t, In t sched -> act t) ->
    sys_safe n (connected_from P0 E) (mode_of o) k act
      (exec n sched (init P0 (map (run_update mx f o) ups))) (the_post ups).
  Proof.
    intros Hd Hr HE Hact. apply sys_safe_exec; auto.
    - apply cf_refl.
    - apply cf_sym.
    - apply cf_trans.
    - split; simpl.
      + split; simpl; auto. intros x. apply cf_P0.
      + intros t p st Ha Ht. rewrite map_map, nth_error_map in Ht.
        unfold the_post. destruct (nth_error ups t) as [x|] eqn:Ex; simpl in Ht; [|discriminate].
        injection Ht as <- <-. simpl. pose proof (Hr x (nth_error_In _ _ Ex)) as [H1 H2].
        apply update_safe; auto.
        * apply cf_refl.
        * apply cf_sym.
        * apply cf_trans.
        * intros u v ->. apply cf_edge. eapply HE; eauto.
        * split; simpl; auto. intros y. apply cf_P0.
  Qed.

  Lemma sys_safe_nofault C md act s Q t : sys_safe n C md 1 act s Q -> act t -> ~ faulted s t.
  Proof.
    intros [Hi Hs] Ha [st H]. specialize (Hs _ _ _ Ha H).
    destruct st as [|c st]; simpl in Hs; apply (Hs _ (rely_refl _ _ _ _) Hi).
  Qed.

  Lemma sys_safe_returned C md act s Q t r : sys_safe n C md 1 act s Q -> act t -> returned s t r ->
    Q t (fst s) r.
  Proof.
    intros [Hi Hs] Ha H. specialize (Hs _ _ _ Ha H). simpl in Hs. apply (Hs _ (rely_refl _ _ _ _) Hi).
  Qed.

  Lemma In_inserted ups t u v : nth_error ups t = Some (Insert u v) -> In (u, v) (inserted ups).
  Proof.
    intros H. apply nth_error_In in H. unfold inserted. rewrite in_flat_map. exists (Insert u v). simpl; auto.
  Qed.

  Lemma In_started sched ups t u v : In t sched -> nth_error ups t = Some (Insert u v) ->
    In (u, v) (inserted (started sched ups)).
  Proof.
    intros Ht H. unfold inserted, started. rewrite in_flat_map. exists (Insert u v). split; [|simpl; auto].
    rewrite in_flat_map. exists t. split; auto. rewrite H. simpl; auto.
  Qed.

  Theorem run_sound P0 ups sched :
    (forall x, P0 x <= x) -> in_range n ups ->
    let s := exec n sched (init P0 (map (run_update mx f o) ups)) in
    (forall t, ~ faulted s t) /\
    (forall x, par (fst s) x <= x) /\
    (forall x y, same_tree (par (fst s)) x y -> connected_from P0 (inserted (started sched ups)) x y).
  Proof.
    intros Hd Hr s. split; [|].
    - intros t. eapply sys_safe_nofault with (act := fun _ => True); auto.
      apply run_safe with (E := inserted ups); auto. intros; eapply In_inserted; eauto.
    - assert (H : sys_safe n (connected_from P0 (inserted (started sched ups))) (mode_of o) 1
                    (fun t => In t sched) s (the_post ups)).
      { apply run_safe; auto. intros; eapply In_started; eauto. }
      destruct H as [Hi _]. split; [apply Hi|].
      intros x y Hs. apply same_tree_iff in Hs; [|apply Hi].
      eapply eqv_C; [| | |exact Hi|exact Hs].
      + apply cf_refl.
      + apply cf_sym.
      + apply cf_trans.
  Qed.

  Theorem run_joined P0 ups sched t u v r :
    (forall x, P0 x <= x) -> in_range n ups ->
    let s := exec n sched (init P0 (map (run_update mx f o) ups)) in
    nth_error ups t = Some (Insert u v) -> returned s t r -> same_tree (par (fst s)) u v.
  Proof.
    intros Hd Hr s Ht Hret.
    assert (H : sys_safe n (connected_from P0 (inserted ups)) (mode_of o) 1 (fun _ => True) s (the_post ups)).
    { apply run_safe; auto. intros; eapply In_inserted; eauto. }
    pose proof (@sys_safe_returned _ _ (fun _ => True) _ _ t r H I Hret) as HQ. unfold the_post in HQ. rewrite Ht in HQ. simpl in HQ.
    apply same_tree_iff; [apply H|]. exact HQ.
  Qed.

  (* old trees are never split *)
  Theorem run_keeps P0 ups sched x y :
    (forall x, P0 x <= x) -> in_range n ups ->
    same_tree P0 x y -> same_tree (par (fst (exec n sched (init P0 (map (run_update mx f o) ups))))) x y.
  Proof.
    intros Hd Hr Hxy.
    set (C := connected_from P0 (inserted ups)).
    assert (Crefl : forall x, C x x) by apply cf_refl.
    assert (Csym : forall x y, C x y -> C y x) by apply cf_sym.
    assert (Ctrans : forall x y z, C x y -> C y z -> C x z) by apply cf_trans.
    (* an always-safe observer thread that merely keeps the fact *)
    assert (G : forall sch k s Q, sys_safe n C (mode_of o) (length sch + k) (fun _ => True) s Q ->
       eqv (fst s) x y -> eqv (fst (exec n sch s)) x y).
    { induction sch as [|t sch IH]; intros k s Q Hs He; simpl; auto.
      eapply IH with (k := k) (Q := Q).
      - apply sys_safe_step; auto.
      - destruct Hs as [Hi Hs]. unfold sys_step.
        destruct (nth_error (snd s) t) as [[p st]|] eqn:Et; auto.
        destruct (tstep n t (fst s) (p, st)) as [m' [p' st']] eqn:Est. simpl.
        pose proof (@safe_thread_step n C _ _ _ _ _ _ _ Hi (Hs _ _ _ I Et)) as H. rewrite Est in H.
        destruct H as [Hg _]. eapply guar_eqv; [exact Hi|exact Hg|exact He]. }
    assert (H0 : sys_safe n C (mode_of o) (length sched + 0) (fun _ => True)
              (init P0 (map (run_update mx f o) ups)) (the_post ups)).
    { pose proof (@run_safe (fun _ => True) P0 (inserted ups) ups [] (length sched + 0) Hd Hr) as H.
      apply H; auto. intros; eapply In_inserted; eauto. }
    pose proof (G sched 0 _ _ H0) as H1. simpl in H1.
    pose proof (@run_sound P0 ups sched Hd Hr) as (_ & Hd' & _).
    apply same_tree_iff; [exact Hd'|]. apply H1. apply same_tree_iff in Hxy; auto.
  Qed.

  Theorem run_complete P0 ups sched :
    (forall x, P0 x <= x) -> in_range n ups ->
    let s := exec n sched (init P0 (map (run_update mx f o) ups)) in
    (forall t, t < length ups -> exists r, returned s t r) ->
    forall x y, same_tree (par (fst s)) x y <-> connected_from P0 (inserted ups) x y.
  Proof.
    intros Hd Hr s Hall x y.
    assert (H : sys_safe n (connected_from P0 (inserted ups)) (mode_of o) 1 (fun _ => True) s (the_post ups)).
    { apply run_safe; auto. intros; eapply In_inserted; eauto. }
    assert (Hdn : down (par (fst s))) by apply H.
    split.
    - intros Hs. apply same_tree_iff in Hs; auto. destruct H as [Hi _].
      eapply eqv_C; [| | |exact Hi|exact Hs]; [apply cf_refl|apply cf_sym|apply cf_trans].
    - intros Hc. apply same_tree_iff; auto. induction Hc as [a b Hab|a|a b Hab IH|a b c _ IH1 _ IH2].
      + destruct Hab as [Hin| ->].
        * unfold inserted in Hin. rewrite in_flat_map in Hin. destruct Hin as [z [Hz Hin]].
          destruct z as [u v|u v]; simpl in Hin; [|tauto]. destruct Hin as [E|[]]. injection E as <- <-.
          destruct (In_nth_error _ _ Hz) as [t Ht].
          assert (Hlt : t < length ups) by (apply nth_error_Some; congruence).
          destruct (Hall t Hlt) as [r Hret].
          apply same_tree_iff; auto. eapply run_joined; eauto.
        * apply same_tree_iff; auto. apply run_keeps; auto.
          apply same_tree_iff; auto. symmetry. apply root_par; auto.
      + reflexivity.
      + auto.
      + congruence.
  Qed.
  End Run.

  (* -- the final pass ------------------------------------------------ *)
  Definition flat_post (i : nat) : post := fun m r => par m i = root (par m) i.

  Lemma label_safe (C : nat -> nat -> Prop) (Crefl : forall x, C x x) (Csym : forall x y, C x y -> C y x)
    (Ctrans : forall x y z, C x y -> C y z -> C x z) k t i m : i < n -> Inv C m ->
    safe n C Label k t (label_vertex f i) m (flat_post i).
  Proof.
    intros Hn Hi. unfold label_vertex.
    eapply safe_Bind. { intros k' _. apply find_safe; auto. }
    intros k1 m1 r Hk1 Hi1 (E & Hr & Hle & Rt).
    assert (Hgw : forall m2, Inv C m2 -> eqv m2 i r -> rootish Label m2 r ->
       guar C Label t m2 (set_par m2 i r) /\ par (set_par m2 i r) i = root (par (set_par m2 i r)) i).
    { intros m2 Hi2 E2 Rt2. pose proof (proj2 Rt2 eq_refl) as Hroot.
      assert (Er : root (par m2) i = r).
      { unfold eqv in E2. rewrite E2. now apply root_self. }
      destruct (Nat.eq_dec r i) as [->|Hne].
      - assert (Hg : guar C Label t m2 (set_par m2 i i)).
        { apply g_same; simpl; auto. intros z. unfold fset. destruct (Nat.eqb_spec z i); congruence. }
        split; auto. simpl. rewrite fset_same. symmetry. apply root_self. simpl. apply fset_same.
      - assert (Hg : guar C Label t m2 (set_par m2 i r)).
        { apply guar_compress_set; auto. lia. }
        split; auto. simpl. rewrite fset_same.
        pose proof (guar_root Hi2 Hg) as [H|(a & b & Hc & _)]; [|congruence].
        rewrite H. auto. }
    apply safe_Wr; auto.
    - intros m2 Hr2 Hi2. adv Hi1 Hr2. apply Hgw; auto.
    - intros k2 m2 Hk2 Hr2 Hi2. adv Hi1 Hr2. destruct (Hgw m2) as [Hg Hf]; auto.
      apply safe_Ret. intros m3 Hr3 Hi3. unfold flat_post.
      assert (Hi2' : Inv C (set_par m2 i r)) by exact (guar_inv Crefl Csym Ctrans Hi2 Hg).
      exact (rely_flat Crefl Csym Ctrans _ eq_refl Hi2' Hr3 Hf).
  Qed.

  Definition label_pass (p : nat -> prog) : list prog := map p (seq 0 n).

  Section Label.
    Variable p : nat -> prog.
    Hypothesis Hp : forall (C : nat -> nat -> Prop) (Crefl : forall x, C x x) (Csym : forall x y, C x y -> C y x)
      (Ctrans : forall x y z, C x y -> C y z -> C x z) k t i m, i < n -> Inv C m ->
      safe n C Label k t (p i) m (flat_post i).

    Theorem label_pass_correct P0 sched :
      (forall x, P0 x <= x) ->
      let s := exec n sched (init P0 (label_pass p)) in
      (forall t, ~ faulted s t) /\
      (forall x y, same_tree (par (fst s)) x y <-> same_tree P0 x y) /\
      ((forall i, i < n -> exists r, returned s i r) -> forall i, i < n -> tree_root P0 i (par (fst s) i)).
    Proof.
      intros Hd s.
      set (C := fun x y => root P0 x = root P0 y).
      assert (Crefl : forall x, C x x) by (intros; reflexivity).
      assert (Csym : forall x y, C x y -> C y x) by (unfold C; congruence).
      assert (Ctrans : forall x y z, C x y -> C y z -> C x z) by (unfold C; congruence).
      assert (Hi0 : Inv C (fst (init P0 (label_pass p)))).
      { split; simpl; auto. intros x. unfold C. symmetry. now apply root_par. }
      assert (H0 : forall k, sys_safe n C Label k (fun _ => True) (init P0 (label_pass p)) (fun t => flat_post t)).
      { intros k. split; auto. intros t q st _ Ht. simpl in Ht. unfold label_pass in Ht.
        rewrite map_map, nth_error_map in Ht.
        destruct (nth_error (seq 0 n) t) as [i|] eqn:Et; [|discriminate].
        simpl in Ht. injection Ht as <- <-.
        assert (Hlt : t < n).
        { rewrite <- (seq_length n 0). apply nth_error_Some. congruence. }
        pose proof (nth_error_nth _ _ 0 Et) as En. rewrite seq_nth in En by auto. simpl in En. subst i.
        simpl. apply Hp; auto. }
      assert (H1 : sys_safe n C Label 1 (fun _ => True) s (fun t => flat_post t)).
      { apply sys_safe_exec; auto. }
      (* roots do not change at all *)
      assert (G : forall sch k s, sys_safe n C Label (length sch + k) (fun _ => True) s (fun t => flat_post t) ->
         forall x, root (par (fst (exec n sch s))) x = root (par (fst s)) x).
      { induction sch as [|t sch IH]; intros k s' Hs x; simpl; auto.
        rewrite (IH k).
        2:{ apply sys_safe_step; auto. }
        destruct Hs as [Hi Hs]. unfold sys_step.
        destruct (nth_error (snd s') t) as [[q st]|] eqn:Et; auto.
        destruct (tstep n t (fst s') (q, st)) as [m' [p' st']] eqn:Est. simpl.
        pose proof (@safe_thread_step n C _ _ _ _ _ _ _ Hi (Hs _ _ _ I Et)) as H. rewrite Est in H.
        destruct H as [Hg _].
        destruct (guar_root Hi Hg) as [H|(a & b & Hc & _)]; [auto|congruence]. }
      pose proof (G sched 0 _ (H0 (length sched + 0))) as Hroots. simpl in Hroots. fold s in Hroots.
      destruct H1 as [Hi1 Hs1]. pose proof (proj1 Hi1) as Hd1.
      split; [|split].
      - intros t. eapply sys_safe_nofault with (act := fun _ => True); auto. split; eauto.
      - intros x y. rewrite !same_tree_iff by auto. rewrite !Hroots. tauto.
      - intros Hall i Hn. destruct (Hall i Hn) as [r Hret].
        pose proof (@sys_safe_returned C Label (fun _ => True) s (fun t => flat_post t) i r (conj Hi1 Hs1) I Hret) as HQ.
        unfold flat_post in HQ. rewrite HQ, Hroots. apply tree_root_iff; auto.
    Qed.
  End Label.
End Sys.

Lemma label_find_compress n (C : nat -> nat -> Prop) (Crefl : forall x, C x x) (Csym : forall x y, C x y -> C y x)
  (Ctrans : forall x y z, C x y -> C y z -> C x z) k t i m : i < n -> Inv C m ->
  safe n C Label k t (find_compress i) m (flat_post i).
Proof.
  intros Hn Hi. eapply safe_post; [|apply find_compress_safe; auto].
  intros m' r Hi' [_ H]. apply H. reflexivity.
Qed.

(* the whole computation: union phase, then label phase *)
Theorem components_correct n mx f o E P0 p sched1 sched2 :
  no_splice_atomic o ->
  (p = label_vertex f \/ p = find_compress) ->
  (forall x, P0 x <= x) -> in_range n (map (fun e => Insert (fst e) (snd e)) E) ->
  let s1 := exec n sched1 (init P0 (map (fun e => unite mx f o (fst e) (snd e)) E)) in
  (forall t, t < length E -> exists r, returned s1 t r) ->
  let s2 := exec n sched2 (init (par (fst s1)) (label_pass n p)) in
  (forall i, i < n -> exists r, returned s2 i r) ->
  forall i j, i < n -> j < n ->
    (par (fst s2) i = par (fst s2) j <-> connected_from P0 E i j) /\
    par (fst s2) i <= i /\
    par (fst s2) (par (fst s2) i) = par (fst s2) i.
Proof.
  intros Ho Hp Hd Hr s1 H1 s2 H2 i j Hi Hj.
  set (ups := map (fun e => Insert (fst e) (snd e)) E) in *.
  assert (Es1 : s1 = exec n sched1 (init P0 (map (run_update mx f o) ups))).
  { unfold s1, ups. now rewrite map_map. }
  assert (Hins : inserted ups = E).
  { unfold inserted, ups. clear. induction E as [|[a b] E IH]; simpl; auto. now rewrite IH. }
  pose proof (@run_sound n mx f o Ho P0 ups sched1 Hd Hr) as (_ & Hd1 & _). rewrite <- Es1 in Hd1.
  pose proof (@run_complete n mx f o Ho P0 ups sched1 Hd Hr) as Hc. cbv zeta in Hc. rewrite <- Es1, Hins in Hc.
  assert (Hc' := Hc). clear Hc.
  assert (Hlen : length ups = length E) by apply map_length. rewrite Hlen in Hc'. specialize (Hc' H1).
  assert (Hsafe : forall (C : nat -> nat -> Prop) (Crefl : forall x, C x x) (Csym : forall x y, C x y -> C y x)
      (Ctrans : forall x y z, C x y -> C y z -> C x z) k t i m, i < n -> Inv C m ->
      safe n C Label k t (p i) m (flat_post i)).
  { destruct Hp as [->| ->]; intros.
    - apply label_safe; auto.
    - apply label_find_compress; auto. }
  pose proof (@label_pass_correct n p Hsafe (par (fst s1)) sched2 Hd1) as (_ & Ht & Hl).
  fold s2 in Ht, Hl. specialize (Hl H2).
  pose proof (Hl i Hi) as Li. pose proof (Hl j Hj) as Lj.
  apply tree_root_iff in Li; auto. apply tree_root_iff in Lj; auto.
  split; [|split].
  - rewrite <- (Hc' i j), same_tree_iff by auto. rewrite Li, Lj. tauto.
  - rewrite <- Li. apply root_le; auto.
  - assert (Hri : root (par (fst s1)) i < n).
    { pose proof (root_le i Hd1). lia. }
    rewrite <- Li at 1. pose proof (Hl _ Hri) as Lr. apply tree_root_iff in Lr; auto.
    rewrite <- Lr. rewrite root_root by auto. exact Li.
Qed.

(* with sampling: vertices already in the component freq do not process their
   edges (UnionFind/Connectivity.h:93-95) *)
Lemma sampled_connectivity (G : list (nat * nat)) (P0 : nat -> nat) freq :
  (forall u v, In (u, v) G -> In (v, u) G) ->
  (forall x, connected G x (P0 x)) ->
  forall x y,
    connected_from P0 (filter (fun e => negb (P0 (fst e) =? freq)) G) x y <-> connected G x y.
Proof.
  intros Hsym HP x y. split.
  - intros H. induction H as [a b [H|H]|a|a b _ IH|a b c _ IH1 _ IH2].
    + apply filter_In in H as [H _]. now apply rst_step.
    + subst b. apply HP.
    + apply rst_refl.
    + now apply rst_sym.
    + eapply rst_trans; eauto.
  - intros H. induction H as [a b H|a|a b _ IH|a b c _ IH1 _ IH2].
    + destruct (Nat.eqb_spec (P0 a) freq) as [Ea|Ea]; [destruct (Nat.eqb_spec (P0 b) freq) as [Eb|Eb]|].
      * eapply rst_trans; [apply rst_step; right; reflexivity|]. rewrite Ea, <- Eb.
        apply rst_sym, rst_step. auto.
      * apply rst_sym, rst_step. left. apply filter_In. split; auto. simpl.
        destruct (Nat.eqb_spec (P0 b) freq); auto.
      * apply rst_step. left. apply filter_In. split; auto. simpl.
        destruct (Nat.eqb_spec (P0 a) freq); auto.
    + apply rst_refl.
    + now apply rst_sym.
    + eapply rst_trans; eauto.
Qed.

(* without sampling: only the edges (u, v) with v < u are processed
   (UnionFind/Connectivity.h:86-88) *)
Lemma halved_connectivity (G : list (nat * nat)) (P0 : nat -> nat) :
  (forall u v, In (u, v) G -> In (v, u) G) ->
  (forall x, P0 x = x) ->
  forall x y,
    connected_from P0 (filter (fun e => snd e <? fst e) G) x y <-> connected G x y.
Proof.
  intros Hsym HP x y. split.
  - intros H. induction H as [a b [H|H]|a|a b _ IH|a b c _ IH1 _ IH2].
    + apply filter_In in H as [H _]. now apply rst_step.
    + rewrite HP in H. subst b. apply rst_refl.
    + apply rst_refl.
    + now apply rst_sym.
    + eapply rst_trans; eauto.
  - intros H. induction H as [a b H|a|a b _ IH|a b c _ IH1 _ IH2].
    + destruct (lt_eq_lt_dec a b) as [[Hl|He]|Hl].
      * apply rst_sym, rst_step. left. apply filter_In. split; auto. now apply Nat.ltb_lt.
      * subst. apply rst_refl.
      * apply rst_step. left. apply filter_In. split; auto. now apply Nat.ltb_lt.
    + apply rst_refl.
    + now apply rst_sym.
    + eapply rst_trans; eauto.
Qed.
