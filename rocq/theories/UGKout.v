(* k-out sampling. *)
From Verif Require Import Base UFSpec UFRoots UFModel UFLogic UFFind UFUnite UFSys UFProps UFWait UGModel UGSpec.
Unset Strict Implicit.

(* -- the compression pass --------------------------------------------------------------------- *)
Definition kc5 (u e : nat) : prog := Wr u e (kcompress u).
Definition kc4 (u d : nat) : prog := Rd d (fun e => kc5 u e).
Definition kc3 (u : nat) : prog := Rd u (fun d => kc4 u d).
Definition kc2 (u a b : nat) : prog := Rd b (fun c => if a =? c then Ret u else kc3 u).
Definition kc1 (u a : nat) : prog := Rd u (fun b => kc2 u a b).
Lemma kc_unfold u : kcompress u = Rd u (fun a => kc1 u a).
Proof. rewrite (frob_eq (kcompress u)). reflexivity. Qed.

Section Compress.
  Variable n : nat.
  Variable P0 : nat -> nat.
  Hypothesis Hd : forall x, P0 x <= x.

  Definition KI (P : nat -> nat) : Prop := down P /\ forall x, root P x = root P0 x.
  (* the states of the task of u, with a bound of the number of its steps to come *)
  Inductive kst (P : nat -> nat) (u : nat) : prog -> nat -> Prop :=
  | k0 : kst P u (kcompress u) (6 * P u + 6)
  | k1 : kst P u (kc1 u (P u)) (6 * P u + 5)
  | k2 : kst P u (kc2 u (P u) (P u)) (6 * P u + 4)
  | k3 : P (P u) <> P u -> kst P u (kc3 u) (6 * P u + 3)
  | k4 : P (P u) <> P u -> kst P u (kc4 u (P u)) (6 * P u + 2)
  | k5 e : e < P u -> root P e = root P u -> kst P u (kc5 u e) (6 * P u + 1)
  | k6 : P (P u) = P u -> kst P u (Ret u) 0.

  Definition changes (P P' : nat -> nat) (u : nat) : Prop :=
    (forall x, P' x = P x) \/ exists e, e < P u /\ root P e = root P u /\ upd1 P P' u e.

  Lemma own_step t m u p b : u < n -> KI (par m) -> kst (par m) u p b ->
    exists m' p' b', tstep n t m (p, []) = (m', (p', [])) /\ kst (par m') u p' b' /\
      changes (par m) (par m') u /\ (b = 0 /\ b' = 0 \/ b' < b).
  Proof.
    intros Hu [Hdn Hrt] H. destruct H.
    - rewrite kc_unfold. simpl. rewrite (proj2 (Nat.ltb_lt u n) Hu). eexists _, _, _. split; [reflexivity|].
      split; [apply k1|]. split; [left; auto|right; lia].
    - unfold kc1. simpl. rewrite (proj2 (Nat.ltb_lt u n) Hu). eexists _, _, _. split; [reflexivity|].
      split; [apply k2|]. split; [left; auto|right; lia].
    - unfold kc2. simpl. assert (Hp : par m u < n) by (pose proof (Hdn u); lia). rewrite (proj2 (Nat.ltb_lt _ n) Hp).
      destruct (Nat.eqb_spec (par m u) (par m (par m u))) as [E|E]; eexists _, _, _; (split; [reflexivity|]).
      + split; [apply k6; auto|]. split; [left; auto|right; lia].
      + split; [apply k3; auto|]. split; [left; auto|right; lia].
    - unfold kc3. simpl. rewrite (proj2 (Nat.ltb_lt u n) Hu). eexists _, _, _. split; [reflexivity|].
      split; [now apply k4|]. split; [left; auto|right; lia].
    - unfold kc4. simpl. assert (Hp : par m u < n) by (pose proof (Hdn u); lia). rewrite (proj2 (Nat.ltb_lt _ n) Hp).
      eexists _, _, _. split; [reflexivity|]. split; [apply k5|].
      + pose proof (Hdn (par m u)). lia.
      + now rewrite !root_par.
      + split; [left; auto|right; lia].
    - unfold kc5. simpl. rewrite (proj2 (Nat.ltb_lt u n) Hu). eexists _, _, _. split; [reflexivity|].
      split; [apply k0|]. split.
      + right. exists e. split; auto. split; auto. split; simpl; [apply fset_same|intros; now apply fset_other].
      + right. simpl. rewrite fset_same. lia.
    - simpl. eexists _, _, _. split; [reflexivity|]. split; [now apply k6|]. split; [left; auto|auto].
  Qed.
  Lemma changes_KI P P' u : KI P -> changes P P' u -> KI P' /\ forall x, root P' x = root P x.
  Proof.
    intros [Hdn Hrt] [H|(e & H1 & H2 & H3)].
    - assert (X : forall x, root P' x = root P x) by (intros; now apply root_ext). split; auto. split.
      + eapply down_ext; eauto.
      + intros x. now rewrite X.
    - assert (Hlt : e < u) by (pose proof (Hdn u); lia).
      assert (X : forall x, root P' x = root P x) by (eapply root_compress; eauto). split; auto. split.
      + eapply upd1_down; eauto. lia.
      + intros x. now rewrite X.
  Qed.
  (* a step of the task of another vertex x *)
  Lemma other_step P P' u x p b : KI P -> changes P P' x -> x <> u -> kst P u p b -> kst P' u p b.
  Proof.
    intros Hi Hc Hne H. pose proof (changes_KI Hi Hc) as [[Hdn' _] Hroot].
    assert (Eu : P' u = P u).
    { destruct Hc as [Hc|(e & _ & _ & [_ Hc])]; auto. }
    assert (E1 : P (P u) = P u -> P' (P u) = P u).
    { intros E. destruct Hc as [Hc|(e & Hl & Hr & [Hc1 Hc2])]; [rewrite Hc; auto|].
      destruct (Nat.eq_dec (P u) x) as [Ex|Ex]; [|rewrite Hc2; auto]. exfalso.
      rewrite Ex in E. rewrite (root_self P E) in Hr. pose proof (root_le e (proj1 Hi)). rewrite E in Hl. lia. }
    assert (E2 : P (P u) <> P u -> P' (P u) <> P u).
    { intros E. destruct Hc as [Hc|(e & Hl & Hr & [Hc1 Hc2])]; [rewrite Hc; auto|].
      destruct (Nat.eq_dec (P u) x) as [Ex|Ex]; [|rewrite Hc2; auto]. rewrite Ex, Hc1. pose proof (proj1 Hi x). lia. }
    destruct H; rewrite <- ?Eu; [apply k0|apply k1|apply k2|apply k3|apply k4|apply k5|apply k6]; rewrite ?Eu, ?Hroot; auto.
  Qed.

  Definition kinv (b : nat -> nat) (s : sys) : Prop :=
    KI (par (fst s)) /\ length (snd s) = n /\
    forall t, t < n -> exists p, nth_error (snd s) t = Some (p, []) /\ kst (par (fst s)) t p (b t).

  Lemma kinv_step b s t : kinv b s -> exists b', kinv b' (sys_step n s t) /\
    (forall x, x <> t -> b' x = b x) /\ (t < n -> b t = 0 /\ b' t = 0 \/ b' t < b t).
  Proof.
    intros (Hi & Hl & Hs). unfold sys_step. destruct (Nat.lt_ge_cases t n) as [Ht|Ht].
    - destruct (Hs t Ht) as (p & Ep & Hp). rewrite Ep.
      destruct (own_step t Ht Hi Hp) as (m' & p' & b' & E1 & E2 & E3 & E4). rewrite E1.
      exists (fun x => if x =? t then b' else b x). split; [split; [|split]|].
      + simpl. exact (proj1 (changes_KI Hi E3)).
      + simpl. now rewrite length_lset.
      + simpl. intros u Hu. destruct (Nat.eqb_spec u t) as [->|Hne].
        * exists p'. rewrite nth_error_lset_same by lia. auto.
        * destruct (Hs u Hu) as (q & Eq & Hq). exists q. rewrite nth_error_lset_other by auto. split; auto.
          eapply other_step; eauto.
      + split.
        * intros x Hx. destruct (Nat.eqb_spec x t); congruence.
        * intros _. rewrite Nat.eqb_refl. exact E4.
    - assert (E : nth_error (snd s) t = None) by (apply nth_error_None; lia). rewrite E.
      exists b. split; [split; auto|]. split; auto. lia.
  Qed.
  Lemma kinv_exec sched : forall b s, kinv b s -> exists b', kinv b' (exec n sched s) /\
    forall t, t < n -> b' t <= b t - count_occ Nat.eq_dec sched t.
  Proof.
    induction sched as [|t sched IH]; intros b s H; simpl.
    - exists b. split; auto. intros; lia.
    - destruct (kinv_step t H) as (b1 & H1 & H2 & H3). destruct (IH b1 _ H1) as (b2 & H4 & H5). exists b2. split; auto.
      intros x Hx. specialize (H5 x Hx). destruct (Nat.eq_dec t x) as [<-|Hne].
      + specialize (H3 Hx). lia.
      + rewrite H2 in H5 by auto. lia.
  Qed.
  Lemma kinv_init : kinv (fun u => 6 * P0 u + 6) (init P0 (map kcompress (seq 0 n))).
  Proof.
    split; [|split].
    - simpl. split; auto.
    - simpl. now rewrite !map_length, seq_length.
    - intros t Ht. exists (kcompress t). split; [|apply k0]. simpl. rewrite map_map, nth_error_map, nth_error_nth' with (d := 0) by (rewrite seq_length; lia).
      rewrite seq_nth by lia. reflexivity.
  Qed.

  Lemma compress_correct sched : let s := compress_phase n sched P0 in
    (forall t, ~ faulted s t) /\ (forall x, par (fst s) x <= x) /\ (forall x, root (par (fst s)) x = root P0 x) /\
    (finished s -> forall x, x < n -> par (fst s) x = root P0 x).
  Proof.
    intros s. destruct (kinv_exec sched kinv_init) as (b & H & _). fold (compress_phase n sched P0) in H. fold s in H.
    destruct H as ([Hdn Hr] & Hl & Hs). split; [|split; [|split]]; auto.
    - intros t [st E]. assert (Ht : t < n) by (rewrite <- Hl; apply nth_error_Some; congruence).
      destruct (Hs t Ht) as (p & Ep & Hp). rewrite Ep in E. injection E as -> <-. rename Hp into X.
      assert (F : forall q b', kst (par (fst s)) t q b' -> q <> Fault).
      { intros q b' Hq. destruct Hq; try (unfold kc1, kc2, kc3, kc4, kc5; congruence). rewrite kc_unfold. congruence. }
      exact (F _ _ X eq_refl).
    - intros Hf x Hx. destruct (Hf x) as [r E]; [now rewrite Hl|]. destruct (Hs x Hx) as (p & Ep & Hp). unfold returned in E.
      rewrite Ep in E. injection E as ->.
      assert (F : forall q b', kst (par (fst s)) x q b' -> q = Ret r -> par (fst s) (par (fst s) x) = par (fst s) x).
      { intros q b' Hq. destruct Hq; auto; try (unfold kc1, kc2, kc3, kc4, kc5; congruence). rewrite kc_unfold. congruence. }
      rewrite <- Hr. rewrite <- root_par by auto. symmetry. apply root_self. exact (F _ _ Hp eq_refl).
  Qed.
  Lemma compress_ends sched : (forall t, t < n -> 6 * n <= count_occ Nat.eq_dec sched t) -> finished (compress_phase n sched P0).
  Proof.
    intros Hc t Ht. destruct (kinv_exec sched kinv_init) as (b & (Hi & Hl & Hs) & Hb). fold (compress_phase n sched P0) in *.
    assert (Hlt : t < n) by (unfold sys in *; lia). specialize (Hb t Hlt). specialize (Hc t Hlt). pose proof (Hd t).
    assert (E : b t = 0) by lia. destruct (Hs t Hlt) as (p & Ep & Hp). rewrite E in Hp.
    exists t. unfold returned. rewrite Ep. inversion Hp; auto; lia.
  Qed.
End Compress.

(* -- the rounds ---------------------------------------------------------------------------------- *)
Lemma link_unite mx f E : map (fun e => link (fst e) (snd e)) E = map (run_update mx f ULink) (map (fun e => Insert (fst e) (snd e)) E).
Proof. now rewrite map_map. Qed.
Lemma inserted_inserts (E : list (nat * nat)) : inserted (map (fun e => Insert (fst e) (snd e)) E) = E.
Proof. unfold inserted. induction E as [|[a b] E IH]; simpl; auto. now rewrite IH. Qed.
Lemma no_splice_link : no_splice_atomic ULink.
Proof. split; discriminate. Qed.

Section Pairs.
  Variable n : nat.
  Variable outn : nat -> list nat.
  Variable rnd : nat -> nat -> nat.
  Lemma ith_In u i x y : In (x, y) (ith outn u i) -> x = u /\ In y (outn u).
  Proof.
    unfold ith. destruct (nth_error (outn u) i) eqn:E; simpl; [|tauto]. intros [H|[]]. injection H as <- <-. split; auto.
    eapply nth_error_In; eauto.
  Qed.
  Lemma max_degree_In u : (forall v, In v (outn u) -> outn v <> []) -> outn u <> [] -> In (max_degree_ngh outn u) (outn u).
  Proof.
    intros Hv Hu. unfold max_degree_ngh.
    set (l := map (fun v => (v, length (outn v))) (outn u)).
    assert (Hl : forall p, In p l -> In (fst p) (outn u) /\ 0 < snd p).
    { intros p Hp. unfold l in Hp. apply in_map_iff in Hp as (v & <- & H). simpl. split; auto. specialize (Hv v H).
      destruct (outn v); [congruence|simpl; lia]. }
    assert (G : forall (ll : list (nat * nat)) acc, (forall p, In p ll -> In (fst p) (outn u) /\ 0 < snd p) ->
      (snd acc = 0 /\ ll <> [] \/ In (fst acc) (outn u)) ->
      In (fst (fold_left (fun a b => if snd a <? snd b then b else a) ll acc)) (outn u)).
    { induction ll as [|p ll IH]; intros acc Hp Ha; simpl; [tauto|]. apply IH; [intros; apply Hp; simpl; auto|].
      right. destruct (Hp p) as [H1 H2]; [simpl; auto|]. destruct (Nat.ltb_spec (snd acc) (snd p)); auto. destruct Ha as [[Ha _]|Ha]; auto. lia. }
    apply G; auto. left. split; auto. unfold l. destruct (outn u); [congruence|discriminate].
  Qed.
  Lemma kpairs_edges ko r u v : (forall a b, a < n -> In b (outn a) -> In a (outn b)) -> In (u, v) (kpairs outn rnd n ko r) -> u < n /\ In v (outn u).
  Proof.
    intros Hsym H. unfold kpairs in H. apply in_flat_map in H as (x & Hx & H). apply in_seq in Hx.
    assert (Q : u = x /\ In v (outn x)); [|destruct Q as [-> Q]; split; [lia|auto]].
    destruct ko; unfold hybrid_pair, pure_pair, afforest_pair, max_degree_pair in H.
    - destruct (r =? 0); [destruct (0 <? length (outn x))|destruct (1 <? length (outn x))]; try (now destruct H); now apply ith_In in H.
    - destruct (0 <? length (outn x)); [|now destruct H]. now apply ith_In in H.
    - destruct (r <? length (outn x)); [|now destruct H]. now apply ith_In in H.
    - destruct (r =? 0).
      + destruct (Nat.ltb_spec 0 (length (outn x))) as [Hl|Hl]; [|now destruct H]. destruct H as [H|[]]. injection H as <- <-. split; auto.
        apply max_degree_In; [|destruct (outn x); [simpl in Hl; lia|discriminate]].
        intros y Hy E. assert (Hxn : x < n) by lia. specialize (Hsym _ _ Hxn Hy). rewrite E in Hsym. destruct Hsym.
      + unfold pure_pair in H. destruct (0 <? length (outn x)); [|now destruct H]. now apply ith_In in H.
  Qed.
End Pairs.

Section Rounds.
  Variable n : nat.
  Variable outn : nat -> list nat.
  Variable rnd : nat -> nat -> nat.
  Hypothesis Hsym : forall a b, a < n -> In b (outn a) -> In a (outn b).
  Hypothesis Hrange : forall a b, a < n -> In b (outn a) -> b < n.
  Variable ko : kout_option.

  Lemma kpairs_range r : edges_in_range n (kpairs outn rnd n ko r).
  Proof. intros u v H. destruct (kpairs_edges Hsym H) as [H1 H2]. split; eauto. Qed.

  Lemma connected_step P r : (forall i j, i < n -> j < n -> P i = P j <-> connected (sampled outn rnd n ko r) i j) -> self_labelled n P ->
    forall i j, i < n -> j < n -> connected_from (fun x => if x <? n then P x else x) (kpairs outn rnd n ko r) i j <-> connected (sampled outn rnd n ko (S r)) i j.
  Proof.
    intros HP Hf i j Hi Hj. assert (Es : sampled outn rnd n ko (S r) = sampled outn rnd n ko r ++ kpairs outn rnd n ko r).
    { unfold sampled. rewrite seq_S, flat_map_app. simpl. now rewrite app_nil_r. }
    assert (Hmono : forall a b, connected (sampled outn rnd n ko r) a b -> connected (sampled outn rnd n ko (S r)) a b).
    { intros a b H. induction H; [apply rst_step; rewrite Es; apply in_or_app; auto|apply rst_refl|now apply rst_sym|eapply rst_trans; eauto]. }
    split.
    - intros H. clear Hi Hj. induction H as [a b [H|H]|a|a b _ IH|a b c _ IH1 _ IH2].
      + apply rst_step. rewrite Es. apply in_or_app. auto.
      + subst b. destruct (Nat.ltb_spec a n) as [Ha|Ha]; [|apply rst_refl]. apply Hmono. destruct (Hf a Ha) as [H1 H2].
        apply HP; auto.
      + apply rst_refl.
      + now apply rst_sym.
      + eapply rst_trans; eauto.
    - assert (Hr : edges_in_range n (sampled outn rnd n ko (S r))).
      { intros u v H. unfold sampled in H. apply in_flat_map in H as (q & _ & H). now apply kpairs_range in H. }
      assert (Hp : forall x, x < n -> connected_from (fun x => if x <? n then P x else x) (kpairs outn rnd n ko r) x (P x)).
      { intros x Hx. apply rst_step. right. destruct (Nat.ltb_spec x n); [auto|lia]. }
      intros H. clear Hi Hj. induction H as [a b H|a|a b _ IH|a b c _ IH1 _ IH2].
      + destruct (Hr _ _ H) as [Ha Hb]. rewrite Es in H. apply in_app_or in H as [H|H]; [|apply rst_step; auto].
        assert (E : P a = P b) by (apply HP; auto; now apply rst_step).
        eapply rst_trans; [now apply Hp|]. rewrite E. apply rst_sym. now apply Hp.
      + apply rst_refl.
      + now apply rst_sym.
      + eapply rst_trans; eauto.
  Qed.

  Lemma cf_ext P P' E x y : (forall z, P z = P' z) -> connected_from P E x y -> connected_from P' E x y.
  Proof.
    intros H X. induction X as [a b [Hx|Hx]|a|a b _ IH|a b c _ IH1 _ IH2].
    - apply rst_step. auto.
    - apply rst_step. right. now rewrite <- H.
    - apply rst_refl.
    - now apply rst_sym.
    - eapply rst_trans; eauto.
  Qed.

  Theorem kout_correct r P : kout outn rnd n ko r P ->
    (forall x, P x <= x) /\ (forall x, n <= x -> P x = x) /\ self_labelled n P /\
    (forall i j, i < n -> j < n -> P i = P j <-> connected (sampled outn rnd n ko r) i j).
  Proof.
    intros H. induction H as [|r P sl sc H IH s1 F1 s2 F2].
    - split; auto. split; auto. split; [intros x Hx; auto|]. intros i j Hi Hj. split; [intros ->; apply rst_refl|].
      intros X. assert (Q : forall a b, connected (sampled outn rnd n ko 0) a b -> a = b) by (intros u v Y; induction Y as [? ? []| | |]; congruence).
      now apply Q.
    - destruct IH as (Hd & Ho & Hf & Hc).
      assert (Hr : in_range n (map (fun e => Insert (fst e) (snd e)) (kpairs outn rnd n ko r))) by apply in_range_edges, kpairs_range.
      assert (Es : s1 = exec n sl (init P (map (run_update 0 FindNaive ULink) (map (fun e => Insert (fst e) (snd e)) (kpairs outn rnd n ko r))))).
      { unfold s1, link_phase. now rewrite (link_unite 0 FindNaive). }
      pose proof (@run_sound n 0 FindNaive ULink no_splice_link P _ sl Hd Hr) as (_ & Hd1 & Hs1). rewrite <- Es in Hd1, Hs1.
      pose proof (@run_complete n 0 FindNaive ULink no_splice_link P _ sl Hd Hr) as Hc1. cbv zeta in Hc1. rewrite <- Es in Hc1.
      rewrite inserted_inserts in Hc1.
      assert (A : forall t, t < length (map (fun e => Insert (fst e) (snd e)) (kpairs outn rnd n ko r)) -> exists x, returned s1 t x).
      { intros t Ht. apply F1. rewrite Es.
        assert (L : forall sch s, length (snd (exec n sch s)) = length (snd s)).
        { induction sch as [|z sch IHs]; intros s; simpl; auto. rewrite IHs. unfold sys_step. destruct (nth_error (snd s) z); auto.
          destruct (tstep n z (fst s) t0). simpl. apply length_lset. }
        rewrite L. simpl. rewrite map_length in Ht. now rewrite !map_length. }
      specialize (Hc1 A).
      destruct (@compress_correct n _ Hd1 sc) as (_ & Hd2 & Hr2 & Hf2). fold s2 in Hd2, Hr2, Hf2. specialize (Hf2 F2).
      assert (Hout : forall x, n <= x -> par (fst s1) x = x).
      { intros x Hx. unfold s1, link_phase.
        assert (L : forall sch s, par (fst (exec n sch s)) x = par (fst s) x).
        { induction sch as [|z sch IHs]; intros s; simpl; auto. rewrite IHs. unfold sys_step. destruct (nth_error (snd s) z) as [[p st]|]; auto.
          destruct p as [v|a c|a v c|a v w c|a c|a c|a c|q c|]; simpl; try (destruct st; reflexivity); auto;
            try (destruct (Nat.ltb_spec a n); simpl; auto).
          - apply fset_other. lia.
          - destruct (par (fst s) a =? v); simpl; auto. apply fset_other. lia.
          - destruct (aux (fst s) a); reflexivity. }
        rewrite L. simpl. auto. }
      assert (Hout2 : forall x, n <= x -> par (fst s2) x = x).
      { intros x Hx. unfold s2, compress_phase.
        assert (L : forall sch s, par (fst (exec n sch s)) x = par (fst s) x).
        { induction sch as [|z sch IHs]; intros s; simpl; auto. rewrite IHs. unfold sys_step. destruct (nth_error (snd s) z) as [[p st]|]; auto.
          destruct p as [v|a c|a v c|a v w c|a c|a c|a c|q c|]; simpl; try (destruct st; reflexivity); auto;
            try (destruct (Nat.ltb_spec a n); simpl; auto).
          - apply fset_other. lia.
          - destruct (par (fst s) a =? v); simpl; auto. apply fset_other. lia.
          - destruct (aux (fst s) a); reflexivity. }
        rewrite L. simpl. auto. }
      split; [exact Hd2|]. split; [exact Hout2|]. split.
      + intros x Hx. rewrite (Hf2 x Hx). pose proof (root_le x Hd1). split; [lia|]. rewrite Hf2 by lia. now apply root_root.
      + intros i j Hi Hj. rewrite (Hf2 i Hi), (Hf2 j Hj), <- same_tree_iff by auto. rewrite Hc1.
        rewrite <- (connected_step Hc Hf Hi Hj). split; apply cf_ext; intros z; destruct (Nat.ltb_spec z n); auto. symmetry; auto.
  Qed.

  (* both loops of a round end *)
  Lemma round_ends r P sl sc : (forall x, P x <= x) ->
    (forall t, t < n -> wait_free_steps n <= count_occ Nat.eq_dec sl t) ->
    (forall t, t < n -> 6 * n <= count_occ Nat.eq_dec sc t) ->
    finished (link_phase outn rnd n ko r sl P) /\ finished (compress_phase n sc (par (fst (link_phase outn rnd n ko r sl P)))).
  Proof.
    intros Hd H1 H2.
    assert (Hr : in_range n (map (fun e => Insert (fst e) (snd e)) (kpairs outn rnd n ko r))) by apply in_range_edges, kpairs_range.
    assert (Es : link_phase outn rnd n ko r sl P = exec n sl (init P (map (run_update 0 FindNaive ULink) (map (fun e => Insert (fst e) (snd e)) (kpairs outn rnd n ko r))))).
    { unfold link_phase. now rewrite (link_unite 0 FindNaive). }
    split.
    - intros t Ht. rewrite Es in *.
      assert (L : forall sch s, length (snd (exec n sch s)) = length (snd s)).
      { induction sch as [|z sch IHs]; intros s; simpl; auto. rewrite IHs. unfold sys_step. destruct (nth_error (snd s) z); auto.
        destruct (tstep n z (fst s) t0). simpl. apply length_lset. }
      rewrite L in Ht. simpl in Ht. rewrite !map_length in Ht.
      apply updates_return; auto.
      + exact I.
      + now rewrite map_length.
      + apply H1. eapply Nat.lt_le_trans; [exact Ht|]. unfold kpairs. clear.
        assert (G : forall (g : nat -> list (nat * nat)) l, (forall x, length (g x) <= 1) -> length (flat_map g l) <= length l).
        { intros g l Hg. induction l as [|a l IH]; simpl; auto. rewrite app_length. specialize (Hg a). lia. }
        rewrite <- (seq_length n 0) at 2. apply G. intros x.
        assert (I1 : forall i, length (ith outn x i) <= 1) by (intros i; unfold ith; destruct (nth_error (outn x) i); simpl; lia).
        destruct ko; unfold hybrid_pair, afforest_pair, max_degree_pair, pure_pair;
          repeat match goal with |- context[if ?c then _ else _] => destruct c end; auto; simpl; lia.
    - apply compress_ends; auto. rewrite Es.
      exact (proj1 (proj2 (@run_sound n 0 FindNaive ULink no_splice_link P _ sl Hd Hr))).
  Qed.
End Rounds.

(* which pairs are sampled *)
Lemma sampled_round outn rnd n ko r q u v : q < r -> In (u, v) (kpairs outn rnd n ko q) -> In (u, v) (sampled outn rnd n ko r).
Proof. intros Hq H. unfold sampled. apply in_flat_map. exists q. split; [apply in_seq; lia|auto]. Qed.
Lemma ith_some outn u i v : nth_error (outn u) i = Some v -> In (u, v) (ith outn u i).
Proof. intros E. unfold ith. rewrite E. simpl. auto. Qed.
Lemma max_degree_max outn u w : In w (outn u) -> length (outn w) <= length (outn (max_degree_ngh outn u)).
Proof.
  unfold max_degree_ngh.
  assert (G : forall (ll : list nat) acc, snd acc <= length (outn (fst acc)) ->
    let p := fold_left (fun a b : nat * nat => if snd a <? snd b then b else a) (map (fun v => (v, length (outn v))) ll) acc in
    snd p <= length (outn (fst p)) /\ snd acc <= snd p /\ forall w, In w ll -> length (outn w) <= snd p).
  { induction ll as [|x ll IH]; intros acc Ha; simpl; [repeat split; auto; intros y []|].
    destruct (Nat.ltb_spec (snd acc) (length (outn x))) as [H|H]; simpl.
    - destruct (IH (x, length (outn x))) as (H1 & H2 & H3); [simpl; auto|]. simpl in *. split; auto. split; [lia|].
      intros y [<-|Hy]; auto.
    - destruct (IH acc Ha) as (H1 & H2 & H3). split; auto. split; auto. intros y [<-|Hy]; auto. lia. }
  intros Hw. destruct (G (outn u) (0, 0)) as (H1 & _ & H3); [simpl; lia|]. specialize (H3 w Hw). lia.
Qed.
Lemma kout_choices n outn rnd ko r u : (forall a b, a < n -> In b (outn a) -> In a (outn b)) -> u < n -> outn u <> [] -> 0 < r ->
  exists v, In v (outn u) /\ In (u, v) (sampled outn rnd n ko r) /\
    (ko = KHybrid -> nth_error (outn u) 0 = Some v /\
      (1 < r -> 1 < length (outn u) -> exists i w, 0 < i /\ nth_error (outn u) i = Some w /\ In (u, w) (sampled outn rnd n ko r))) /\
    (ko = KMaxDegree -> forall w, In w (outn u) -> length (outn w) <= length (outn v)) /\
    (ko = KAfforest -> forall i w, i < r -> nth_error (outn u) i = Some w -> In (u, w) (sampled outn rnd n ko r)).
Proof.
  intros Hsym Hu Hne Hr.
  assert (Hlen : 0 < length (outn u)) by (destruct (outn u); [congruence|simpl; lia]).
  assert (Hk : forall q x, q < r -> In x (match ko with KHybrid => hybrid_pair outn rnd q | KPure => pure_pair outn rnd q
      | KAfforest => afforest_pair outn q | KMaxDegree => max_degree_pair outn rnd q end u) -> In x (sampled outn rnd n ko r)).
  { intros q x Hq Hx. unfold sampled. apply in_flat_map. exists q. split; [apply in_seq; lia|]. unfold kpairs. apply in_flat_map.
    exists u. split; [apply in_seq; lia|exact Hx]. }
  assert (Hnth : forall i, i < length (outn u) -> exists v, nth_error (outn u) i = Some v).
  { intros i Hi. destruct (nth_error (outn u) i) eqn:E; eauto. apply nth_error_None in E. lia. }
  destruct (Hnth 0 Hlen) as [v0 E0].
  destruct ko.
  - exists v0. split; [eapply nth_error_In; eauto|]. split; [|split; [|split; discriminate]].
    + apply (Hk 0); auto. unfold hybrid_pair. simpl. rewrite (proj2 (Nat.ltb_lt 0 _) Hlen). now apply ith_some.
    + intros _. split; auto. intros H1 H2. assert (Hm : 1 + rnd 1 u mod (length (outn u) - 1) < length (outn u)).
      { pose proof (Nat.mod_upper_bound (rnd 1 u) (length (outn u) - 1)). lia. }
      destruct (Hnth _ Hm) as [w Ew]. exists (1 + rnd 1 u mod (length (outn u) - 1)), w. split; [lia|]. split; auto.
      apply (Hk 1); auto. unfold hybrid_pair. cbn [Nat.eqb]. rewrite (proj2 (Nat.ltb_lt 1 _) H2). now apply ith_some.
  - assert (Hm : rnd 0 u mod length (outn u) < length (outn u)) by (apply Nat.mod_upper_bound; lia).
    destruct (Hnth _ Hm) as [w Ew]. exists w. split; [eapply nth_error_In; eauto|]. split; [|split; [discriminate|split; discriminate]].
    apply (Hk 0); auto. unfold pure_pair. rewrite (proj2 (Nat.ltb_lt 0 _) Hlen). now apply ith_some.
  - exists v0. split; [eapply nth_error_In; eauto|].
    assert (A : forall i w, i < r -> nth_error (outn u) i = Some w -> In (u, w) (sampled outn rnd n KAfforest r)).
    { intros i w Hi Ew. apply (Hk i); auto. unfold afforest_pair.
      assert (Hl : i < length (outn u)) by (apply nth_error_Some; congruence). rewrite (proj2 (Nat.ltb_lt i _) Hl). now apply ith_some. }
    split; [eapply A; eauto|]. split; [discriminate|]. split; [discriminate|]. intros _. exact A.
  - exists (max_degree_ngh outn u).
    assert (Hin : In (max_degree_ngh outn u) (outn u)).
    { apply max_degree_In; auto. intros y Hy E. specialize (Hsym _ _ Hu Hy). rewrite E in Hsym. destruct Hsym. }
    split; auto. split; [|split; [discriminate|split; [|discriminate]]].
    + apply (Hk 0); auto. unfold max_degree_pair. simpl. rewrite (proj2 (Nat.ltb_lt 0 _) Hlen). simpl. auto.
    + intros _ w Hw. now apply max_degree_max.
Qed.
