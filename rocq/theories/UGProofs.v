(* Union-find connectivity from any labelling in which labels label themselves. *)
From Verif Require Import Base UFSpec UFRoots UFModel UFLogic UFFind UFUnite UFSys UFProps UFWait UGSim UGSpec.
Unset Strict Implicit.

(* the final pass over any list of vertices *)
Section Labels.
  Variable n : nat.
  Variable f : find_option.
  Variable is : list nat.
  Hypothesis His : forall i, In i is -> i < n.
  Variable P0 : nat -> nat.
  Hypothesis Hd : forall x, P0 x <= x.

  Definition post_of (t : nat) : post := match nth_error is t with Some i => flat_post i | None => fun _ _ => True end.
  Let C := fun x y => root P0 x = root P0 y.
  Let Crefl : forall x, C x x.
  Proof. intros; reflexivity. Qed.
  Let Csym : forall x y, C x y -> C y x.
  Proof. unfold C; congruence. Qed.
  Let Ctrans : forall x y z, C x y -> C y z -> C x z.
  Proof. unfold C; congruence. Qed.

  Lemma label_list_start k : sys_safe n C Label k (fun _ => True) (init P0 (map (label_vertex f) is)) post_of.
  Proof.
    assert (Hi0 : Inv C (fst (init P0 (map (label_vertex f) is)))).
    { split; simpl; auto. intros x. unfold C. symmetry. now apply root_par. }
    split; auto. intros t q st _ Ht. simpl in Ht. rewrite map_map, nth_error_map in Ht. unfold post_of.
    destruct (nth_error is t) as [i|] eqn:Et; [|discriminate]. simpl in Ht. injection Ht as <- <-. simpl.
    apply label_safe; auto. apply His. eapply nth_error_In; eauto.
  Qed.
  Lemma label_list_roots sched : forall x, root (par (fst (exec n sched (init P0 (map (label_vertex f) is))))) x = root P0 x.
  Proof.
    assert (G : forall sch k s, sys_safe n C Label (length sch + k) (fun _ => True) s post_of ->
       forall x, root (par (fst (exec n sch s))) x = root (par (fst s)) x).
    { induction sch as [|t sch IH]; intros k s' Hs x; simpl; auto.
      rewrite (IH k). 2:{ apply sys_safe_step; auto. }
      destruct Hs as [Hi Hs]. unfold sys_step.
      destruct (nth_error (snd s') t) as [[q st]|] eqn:Et; auto.
      destruct (tstep n t (fst s') (q, st)) as [m' [p' st']] eqn:Est. simpl.
      pose proof (@safe_thread_step n C _ _ _ _ _ _ _ Hi (Hs _ _ _ I Et)) as H. rewrite Est in H.
      destruct H as [Hg _].
      destruct (guar_root Hi Hg) as [H|(a & b & Hc & _)]; [auto|congruence]. }
    intros x. apply (G sched 0 _ (label_list_start (length sched + 0))).
  Qed.
  Lemma label_list_correct sched t i : nth_error is t = Some i ->
    let s := exec n sched (init P0 (map (label_vertex f) is)) in
    (exists r, returned s t r) -> par (fst s) i = root P0 i.
  Proof.
    intros Ei s [r Hr]. assert (H1 : sys_safe n C Label 1 (fun _ => True) s post_of) by (apply sys_safe_exec; auto using label_list_start).
    pose proof (@sys_safe_returned n C Label (fun _ => True) s post_of t r H1 I Hr) as HQ. unfold post_of in HQ. rewrite Ei in HQ.
    unfold flat_post in HQ. rewrite HQ. apply label_list_roots.
  Qed.
  Lemma label_list_return sched t : t < length is -> wait_free_steps n <= count_occ Nat.eq_dec sched t ->
    exists r, returned (exec n sched (init P0 (map (label_vertex f) is))) t r.
  Proof.
    intros Ht Hc.
    assert (Hat : forall t' q st, nth_error (snd (init P0 (map (label_vertex f) is))) t' = Some (q, st) ->
      exists i, In i is /\ q = label_vertex f i /\ st = []).
    { intros t' q st E. simpl in E. rewrite map_map, nth_error_map in E.
      destruct (nth_error is t') as [i|] eqn:Ei; [|discriminate]. injection E as <- <-. exists i. split; auto. eapply nth_error_In; eauto. }
    eapply exec_ends with (C := C) (md := Label) (Q := post_of) (b := fun _ => wait_free_steps n); auto.
    - intros k. apply label_list_start.
    - intros t' q st E. apply Hat in E as (i & Hi & -> & ->). apply label_ends; auto.
    - simpl. now rewrite !map_length.
  Qed.
End Labels.

Section Flat.
  Variable n mx : nat.
  Variable f : find_option.
  Variable o : unite_option.
  Hypothesis Ho : no_splice_atomic o.
  Hypothesis He : o <> UEarly.
  Variable P0 : nat -> nat.
  Hypothesis HP : self_labelled n P0.

  Definition ctr (x : nat) : bool := P0 x =? x.
  Definition sg : nat -> nat := sig n ctr.
  Definition P1 (z : nat) : nat := if (n <=? z) && (z <? n + n) then P0 (z - n) else z.
  Definition ren (E : list (nat * nat)) : list (nat * nat) := map (fun e => (sg (fst e), sg (snd e))) E.

  Lemma P1_down x : P1 x <= x.
  Proof.
    unfold P1. destruct (Nat.leb_spec n x), (Nat.ltb_spec x (n + n)); simpl; auto.
    destruct (HP (x := x - n)); lia.
  Qed.
  Lemma P1_sg x : x < n -> P1 (sg x) = P0 x /\ cv n ctr (P0 x).
  Proof.
    intros Hx. destruct (HP Hx) as [H1 H2]. split; [|split; auto; unfold ctr; now apply Nat.eqb_eq].
    unfold P1, sg, sig, ctr. destruct (Nat.eqb_spec (P0 x) x) as [E|E].
    - destruct (Nat.leb_spec n x); [lia|]. simpl. auto.
    - destruct (Nat.leb_spec n (n + x)); [|lia]. destruct (Nat.ltb_spec (n + x) (n + n)); [|lia]. simpl. f_equal. lia.
  Qed.
  Lemma sg_lt x : x < n -> sg x < n + n.
  Proof. apply sig_lt. Qed.

  Section Run.
  Variable E : list (nat * nat).
  Hypothesis HE : edges_in_range n E.
  Variable sched1 sched2 : list nat.

  Let s1 := exec n sched1 (init P0 (map (fun e => unite mx f o (fst e) (snd e)) E)).
  Let s2 := exec n sched2 (init (par (fst s1)) (label_pass n (label_vertex f))).
  Let t1 := exec (n + n) sched1 (init P1 (map (fun e => unite mx f o (fst e) (snd e)) (ren E))).
  Let t2 := exec (n + n) sched2 (init (par (fst t1)) (map (label_vertex f) (map sg (seq 0 n)))).

  Lemma ren_range : edges_in_range (n + n) (ren E).
  Proof.
    intros u v H. unfold ren in H. apply in_map_iff in H as ([a b] & Eq & H). injection Eq as <- <-.
    destruct (HE H). split; now apply sg_lt.
  Qed.
  Lemma sim1 k : ssim n ctr k s1 t1.
  Proof.
    apply ssim_exec. apply ssim_init.
    - intros x Hx. now apply P1_sg.
    - unfold ren. rewrite map_map. clear - HE He. induction E as [|[a b] E' IH]; simpl; constructor.
      + intros k. destruct (HE (u := a) (v := b)) as [Ha Hb]; [simpl; auto|]. apply unite_sim; auto; split; auto.
      + apply IH. intros u v H. apply HE. simpl; auto.
  Qed.
  Lemma sim2 k : ssim n ctr k s2 t2.
  Proof.
    apply ssim_exec. apply ssim_init.
    - intros x Hx. destruct (sim1 0) as (Hm & _). destruct (Hm x Hx) as (H1 & H2 & _). auto.
    - unfold label_pass. rewrite map_map. assert (Hs : forall i, In i (seq 0 n) -> i < n) by (intros i Hi; apply in_seq in Hi; lia).
      induction (seq 0 n) as [|i l IH]; simpl; constructor.
      + intros k'. apply label_sim. split; [apply Hs; simpl; auto|reflexivity].
      + apply IH. intros j Hj. apply Hs. simpl; auto.
  Qed.

  Lemma updates_eq : map (fun e => unite mx f o (fst e) (snd e)) (ren E) =
    map (run_update mx f o) (map (fun e => Insert (fst e) (snd e)) (ren E)).
  Proof. now rewrite map_map. Qed.

  Lemma t1_down : down (par (fst t1)).
  Proof.
    unfold t1. rewrite updates_eq.
    exact (proj1 (proj2 (@run_sound (n + n) mx f o Ho P1 _ sched1 P1_down (in_range_edges ren_range)))).
  Qed.
  Lemma flat_nofault : (forall t, ~ faulted s1 t) /\ (forall t, ~ faulted s2 t).
  Proof. split; intros t; eapply ssim_nofault; [apply sim1|apply sim2]. Qed.

  Lemma flat_tree : forall i, i < n -> par (fst s1) i < n /\ exists r, tree_root (par (fst s1)) i r.
  Proof.
    intros i Hi. destruct (sim1 0) as (Hm & _).
    assert (Hlt : forall x, x < n -> par (fst s1) x < n) by (intros x Hx; destruct (Hm x Hx) as (_ & [H _] & _); exact H).
    split; [now apply Hlt|].
    pose proof t1_down as Hd.
    assert (Hit : forall k x, x < n -> Nat.iter k (par (fst s1)) x < n /\ Nat.iter k (par (fst t1)) (sg x) = sg (Nat.iter k (par (fst s1)) x)).
    { induction k as [|k IH]; intros x Hx; simpl; auto. destruct (IH x Hx) as [H1 H2]. rewrite H2. split; [now apply Hlt|].
      destruct (Hm _ H1) as (H3 & H4 & _). unfold sg in *. rewrite H3. symmetry. now apply sig_cv. }
    exists (Nat.iter (sg i) (par (fst s1)) i). split; [|now exists (sg i)].
    destruct (Hit (sg i) i Hi) as [H1 H2]. pose proof (root_fix (sg i) Hd) as H3. unfold root in H3. rewrite H2 in H3.
    destruct (Hm _ H1) as (H4 & H5 & _). unfold sg in H3 at 1. rewrite H4 in H3.
    assert (X : sig n ctr (par (fst s1) (Nat.iter (sg i) (par (fst s1)) i)) = sg (Nat.iter (sg i) (par (fst s1)) i)) by (rewrite sig_cv; auto).
    apply sig_inj in X; auto.
  Qed.

  Lemma flat_run (G : list (nat * nat)) :
    (forall i j, i < n -> j < n -> connected_from P1 (ren E) (sg i) (sg j) <-> connected G i j) ->
    all_returned s1 (length E) -> all_returned s2 n -> component_labels n G (par (fst s2)).
  Proof.
    intros HC A1 A2 i j Hi Hj.
    assert (B1 : forall t, t < length (map (fun e => Insert (fst e) (snd e)) (ren E)) -> exists r, returned t1 t r).
    { unfold ren. rewrite !map_length. intros t Ht. apply (ssim_returned t (sim1 1)). auto. }
    assert (Hr : in_range (n + n) (map (fun e => Insert (fst e) (snd e)) (ren E))) by apply in_range_edges, ren_range.
    pose proof (@run_complete (n + n) mx f o Ho P1 _ sched1 P1_down Hr) as Hc. cbv zeta in Hc.
    rewrite <- updates_eq in Hc. fold t1 in Hc. specialize (Hc B1).
    assert (Hins : inserted (map (fun e => Insert (fst e) (snd e)) (ren E)) = ren E).
    { unfold inserted. clear. induction (ren E) as [|[a b] l IH]; simpl; auto. now rewrite IH. }
    rewrite Hins in Hc.
    pose proof t1_down as Hd1.
    assert (B2 : forall k, k < n -> par (fst s2) k = root (par (fst t1)) (sg k)).
    { intros k Hk. destruct (sim2 0) as (Hm & _). destruct (Hm k Hk) as (H1 & _). rewrite <- H1. fold (sg k).
      apply (@label_list_correct (n + n) f (map sg (seq 0 n))) with (t := k).
      - intros z Hz. apply in_map_iff in Hz as (y & <- & Hy). apply in_seq in Hy. apply sg_lt. lia.
      - exact Hd1.
      - rewrite nth_error_map, nth_error_nth' with (d := 0) by (rewrite seq_length; lia). rewrite seq_nth by lia. reflexivity.
      - apply (ssim_returned k (sim2 1)). apply A2. exact Hk. }
    destruct (sim2 0) as (Hm & _). destruct (Hm i Hi) as (H1 & H2 & _).
    split; [|split].
    - rewrite !B2 by auto. rewrite <- same_tree_iff by auto. rewrite Hc. now apply HC.
    - apply H2.
    - destruct H2 as [H2 H3]. rewrite (B2 _ H2). unfold sg. rewrite (sig_cv (conj H2 H3)). rewrite (B2 i Hi). now apply root_root.
  Qed.
  End Run.

  (* back from the renamed vertices *)
  Definition tau (z : nat) : nat := if (n <=? z) && (z <? n + n) then z - n else z.
  Lemma tau_sg x : x < n -> tau (sg x) = x.
  Proof.
    intros Hx. unfold tau, sg, sig. destruct (ctr x).
    - destruct (Nat.leb_spec n x); [lia|auto].
    - destruct (Nat.leb_spec n (n + x)); [|lia]. destruct (Nat.ltb_spec (n + x) (n + n)); [|lia]. simpl. lia.
  Qed.
  Lemma sampled_ren (G : list (nat * nat)) freq : symmetric G -> edges_in_range n G ->
    (forall x, x < n -> connected G x (P0 x)) ->
    forall i j, i < n -> j < n ->
      connected_from P1 (ren (filter (fun e => negb (P0 (fst e) =? freq)) G)) (sg i) (sg j) <-> connected G i j.
  Proof.
    intros HG Hr Hc i j Hi Hj. set (E := filter (fun e => negb (P0 (fst e) =? freq)) G). split.
    - intros H. rewrite <- (tau_sg Hi), <- (tau_sg Hj). induction H as [a b [H|H]|a|a b _ IH|a b c _ IH1 _ IH2].
      + unfold ren in H. apply in_map_iff in H as ([u v] & Eq & H). injection Eq as <- <-. apply filter_In in H as [H _].
        destruct (Hr _ _ H). simpl. rewrite !tau_sg by auto. now apply rst_step.
      + subst b. unfold P1, tau. destruct (Nat.leb_spec n a) as [L1|L1], (Nat.ltb_spec a (n + n)) as [L2|L2]; simpl.
        * assert (La : a - n < n) by lia. destruct (HP La) as [Ha _]. destruct (Nat.leb_spec n (P0 (a - n))); [lia|]. simpl. now apply Hc.
        * destruct (Nat.leb_spec n a), (Nat.ltb_spec a (n + n)); simpl; try lia; apply rst_refl.
        * destruct (Nat.leb_spec n a), (Nat.ltb_spec a (n + n)); simpl; try lia; apply rst_refl.
        * destruct (Nat.leb_spec n a), (Nat.ltb_spec a (n + n)); simpl; try lia; apply rst_refl.
      + apply rst_refl.
      + now apply rst_sym.
      + eapply rst_trans; eauto.
    - intros H.
      assert (Hp : forall x, x < n -> connected_from P1 (ren E) (sg x) (P0 x)).
      { intros x Hx. apply rst_step. right. symmetry. now apply P1_sg. }
      assert (Hb : forall a b, connected G a b -> a < n -> b < n -> connected_from P1 (ren E) (sg a) (sg b)).
      { clear i j Hi Hj H. intros a b H. 
        assert (X : a = b \/ (a < n /\ b < n /\ connected_from P1 (ren E) (sg a) (sg b))).
        { induction H as [a b H|a|a b _ IH|a b c _ IH1 _ IH2]; auto.
          - right. destruct (Hr _ _ H) as [Ha Hb]. split; auto. split; auto.
            destruct (Nat.eqb_spec (P0 a) freq) as [Ea|Ea]; [destruct (Nat.eqb_spec (P0 b) freq) as [Eb|Eb]|].
            + eapply rst_trans; [now apply Hp|]. rewrite Ea, <- Eb. apply rst_sym. now apply Hp.
            + apply rst_sym, rst_step. left. unfold ren. apply in_map_iff. exists (b, a). split; auto. apply filter_In. split; auto. simpl.
              destruct (Nat.eqb_spec (P0 b) freq); auto.
            + apply rst_step. left. unfold ren. apply in_map_iff. exists (a, b). split; auto. apply filter_In. split; auto. simpl.
              destruct (Nat.eqb_spec (P0 a) freq); auto.
          - destruct IH as [->|(H1 & H2 & H3)]; auto. right. repeat split; auto. now apply rst_sym.
          - destruct IH1 as [->|(H1 & H2 & H3)]; auto. destruct IH2 as [<-|(H4 & H5 & H6)]; auto. right. repeat split; auto. eapply rst_trans; eauto. }
        intros Ha Hb. destruct X as [->|(_ & _ & X)]; auto. apply rst_refl. }
      now apply Hb.
  Qed.

  Lemma flat_ends E sched1 sched2 : no_waiting o -> edges_in_range n E ->
    (forall t, t < length E -> wait_free_steps (n + n) <= count_occ Nat.eq_dec sched1 t) ->
    (forall t, t < n -> wait_free_steps (n + n) <= count_occ Nat.eq_dec sched2 t) ->
    let s1 := exec n sched1 (init P0 (map (fun e => unite mx f o (fst e) (snd e)) E)) in
    let s2 := exec n sched2 (init (par (fst s1)) (label_pass n (label_vertex f))) in
    all_returned s1 (length E) /\ all_returned s2 n.
  Proof.
    intros Hw HE H1 H2 s1 s2.
    assert (Hr : in_range (n + n) (map (fun e => Insert (fst e) (snd e)) (ren E))) by apply in_range_edges, ren_range, HE.
    split.
    - intros t Ht. apply (ssim_returned t (sim1 HE sched1 1)). rewrite updates_eq. apply updates_return; auto using P1_down.
      unfold ren. rewrite !map_length. auto.
    - intros t Ht. apply (ssim_returned t (sim2 HE sched1 sched2 1)). apply label_list_return.
      + intros z Hz. apply in_map_iff in Hz as (y & <- & Hy). apply in_seq in Hy. apply sg_lt. lia.
      + exact (t1_down HE sched1).
      + now rewrite map_length, seq_length.
      + auto.
  Qed.
End Flat.
