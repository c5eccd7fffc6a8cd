(* Proofs for C43. *)
From Coq Require Import ZArith Permutation Sorted.
From Verif Require Import Base ListUtil GBModel GBProofs UFSpec UFRoots UFModel UFFind SFModel SFProofs FRSpec FRProofs KRModel.

(* -- running alone ---------------------------------------------------------------------- *)
Lemma solo_det n p m r m' : solo n p m r m' -> forall r2 m2, solo n p m r2 m2 -> r2 = r /\ m2 = m'.
Proof.
  induction 1; intros r2 m2 H2; inversion H2; subst; auto.
  match goal with H : solo n q m _ _ |- _ => apply IHsolo1 in H as [-> ->] end. auto.
Qed.
(* it is what the scheduler of UFModel does when no other thread runs *)
Lemma solo_exec n p m r m' : solo n p m r m' -> forall st, exists k, exec n (repeat 0 k) (m, [(p, st)]) = (m', [(Ret r, st)]).
Proof.
  induction 1 as [r m|a k m r m' Ha H IH|a v k m r m' Ha H IH|a old new k m r m' Ha H IH|q k m x m1 r m' H1 IH1 H2 IH2]; intros st.
  - exists 0. reflexivity.
  - destruct (IH st) as (j & Hj). exists (S j). unfold exec in *. simpl. unfold sys_step at 2. simpl. now rewrite (proj2 (Nat.ltb_lt _ _) Ha).
  - destruct (IH st) as (j & Hj). exists (S j). unfold exec in *. simpl. unfold sys_step at 2. simpl. now rewrite (proj2 (Nat.ltb_lt _ _) Ha).
  - destruct (IH st) as (j & Hj). exists (S j). unfold exec in *. simpl. unfold sys_step at 2. simpl. rewrite (proj2 (Nat.ltb_lt _ _) Ha). destruct (par m a =? old); auto.
  - destruct (IH1 (k :: st)) as (j1 & Hj1). destruct (IH2 st) as (j2 & Hj2). exists (S (j1 + S j2)).
    change (exec n (repeat 0 (j1 + S j2)) (m, [(q, k :: st)]) = (m', [(Ret r, st)])). unfold exec in *. rewrite repeat_app, fold_left_app, Hj1.
    change (fold_left (sys_step n) (repeat 0 j2) (m1, [(k x, st)]) = (m', [(Ret r, st)])). exact Hj2.
Qed.

Definition keeps (m m' : mem) : Prop := down (par m') /\ forall x, root (par m') x = root (par m) x.
Lemma keeps_trans a b c : keeps a b -> keeps b c -> keeps a c.
Proof. intros [A B] [C D]. split; auto. intros x. now rewrite D, B. Qed.

Section Solo.
  Variable n : nat.
  Lemma loop2_solo i : forall j m, down (par m) -> i < n -> root (par m) i = j ->
    exists m', solo n (find_compress_loop2 i j) m j m' /\ keeps m m'.
  Proof.
    induction i as [i IH] using lt_wf_ind. intros j m Hd Hi Hj. rewrite (frob_eq (find_compress_loop2 i j)). cbn [frob find_compress_loop2].
    pose proof (Hd i) as Hle. destruct (j <? par m i) eqn:E; [apply Nat.ltb_lt in E as H|apply Nat.ltb_ge in E as H].
    - assert (Hne : par m i <> i) by (intros X; rewrite (root_self (par m) X) in Hj; lia).
      assert (Hu : upd1 (par m) (par (set_par m i j)) i j) by (split; simpl; [apply fset_same|intros; now apply fset_other]).
      assert (Hk : keeps m (set_par m i j)).
      { split; [eapply upd1_down; eauto; lia|]. refine (@root_compress _ _ i j Hd _ _ Hu); [|lia]. rewrite <- Hj. now apply root_root. }
      destruct (IH (par m i)) with (j := j) (m := set_par m i j) as (m' & Hs & Hk'); [lia|apply Hk|lia| |].
      { rewrite (proj2 Hk). rewrite <- Hj. now apply root_par. }
      exists m'. split; [|eapply keeps_trans; eauto]. constructor; auto. rewrite E. constructor; auto.
    - exists m. split; [|split; auto]. constructor; auto. rewrite E. constructor.
  Qed.
  Lemma loop1_solo i j : forall m, down (par m) -> i < n -> j < n -> root (par m) j = root (par m) i -> par m j <> j ->
    exists m', solo n (find_compress_loop1 i j) m (root (par m) i) m' /\ keeps m m'.
  Proof.
    induction j as [j IH] using lt_wf_ind. intros m Hd Hi Hj Hr Hne. rewrite (frob_eq (find_compress_loop1 i j)). cbn [frob find_compress_loop1].
    pose proof (Hd j) as Hle. destruct (par m (par m j) =? par m j) eqn:E; [apply Nat.eqb_eq in E as H|apply Nat.eqb_neq in E as H].
    - destruct (@loop2_solo i (root (par m) i) m Hd Hi eq_refl) as (m' & Hs & Hk). exists m'. split; auto. constructor; auto. constructor; [lia|]. rewrite E.
      replace (par m j) with (root (par m) i); auto. rewrite <- Hr, <- root_par by auto. now apply root_self.
    - destruct (IH (par m j)) with (m := m) as (m' & Hs & Hk); auto; try lia; [now rewrite root_par|]. exists m'. split; auto. constructor; auto. constructor; [lia|]. now rewrite E.
  Qed.
  Lemma find_solo i m : down (par m) -> i < n -> exists m', solo n (find FindCompress i) m (root (par m) i) m' /\ keeps m m'.
  Proof.
    intros Hd Hi. cbn [find]. unfold find_compress. destruct (par m i =? i) eqn:E; [apply Nat.eqb_eq in E as H|apply Nat.eqb_neq in E as H].
    - exists m. split; [|split; auto]. constructor; auto. rewrite E, (root_self (par m) H). constructor.
    - destruct (@loop1_solo i i m Hd Hi Hi eq_refl H) as (m' & Hs & Hk). exists m'. split; auto. constructor; auto. now rewrite E.
  Qed.
  (* unite joins the two trees *)
  Lemma unite_solo mx u v m : down (par m) -> u < n -> v < n -> root (par m) u <> root (par m) v ->
    exists r m', solo n (unite mx FindCompress UUnite u v) m r m' /\ down (par m') /\
      forall x, root (par m') x = if root (par m) x =? Nat.max (root (par m) u) (root (par m) v)
                                  then Nat.min (root (par m) u) (root (par m) v) else root (par m) x.
  Proof.
    intros Hd Hu Hv Hne. cbn [unite]. rewrite (frob_eq (unite_loop mx FindCompress u v)). cbn [frob unite_loop].
    destruct (@find_solo u m Hd Hu) as (m1 & S1 & K1). destruct (@find_solo v m1 (proj1 K1) Hv) as (m2 & S2 & K2).
    rewrite (proj2 K1) in S2. pose proof (keeps_trans K1 K2) as K. set (a := root (par m) u) in *. set (b := root (par m) v) in *.
    assert (Ea : par m2 a = a) by (apply root_eq_self; [apply K|]; rewrite (proj2 K); unfold a; now apply root_root).
    assert (Eb : par m2 b = b) by (apply root_eq_self; [apply K|]; rewrite (proj2 K); unfold b; now apply root_root).
    assert (Ha : a < n) by (unfold a; pose proof (root_le u Hd); lia). assert (Hb : b < n) by (unfold b; pose proof (root_le v Hd); lia).
    destruct (b <? a) eqn:E; [apply Nat.ltb_lt in E as H|apply Nat.ltb_ge in E as H].
    - exists a, (set_par m2 a b). split; [|split].
      + econstructor; [exact S1|]. econstructor; [exact S2|]. rewrite (proj2 (Nat.eqb_neq a b) Hne), E. constructor; auto. rewrite Ea, Nat.eqb_refl.
        constructor; auto. rewrite Ea, Nat.eqb_refl. constructor.
      + eapply upd1_down; [apply K| |apply Nat.lt_le_incl, H]. split; simpl; [apply fset_same|intros; now apply fset_other].
      + intros x. rewrite (@root_hook (par m2) (par (set_par m2 a b)) a b (proj1 K) Ea H); [|split; simpl; [apply fset_same|intros; now apply fset_other]].
        rewrite !(proj2 K). rewrite Nat.max_l, Nat.min_r by lia. assert (root (par m) b = b) as -> by (unfold b; now apply root_root). reflexivity.
    - assert (H' : a < b) by lia. exists b, (set_par m2 b a). split; [|split].
      + econstructor; [exact S1|]. econstructor; [exact S2|]. rewrite (proj2 (Nat.eqb_neq a b) Hne), E. constructor; auto. rewrite Eb, Nat.eqb_refl.
        constructor; auto. rewrite Eb, Nat.eqb_refl. constructor.
      + eapply upd1_down; [apply K| |apply Nat.lt_le_incl, H']. split; simpl; [apply fset_same|intros; now apply fset_other].
      + intros x. rewrite (@root_hook (par m2) (par (set_par m2 b a)) b a (proj1 K) Eb H'); [|split; simpl; [apply fset_same|intros; now apply fset_other]].
        rewrite !(proj2 K). rewrite Nat.max_r, Nat.min_l by lia. assert (root (par m) a = a) as -> by (unfold a; now apply root_root). reflexivity.
  Qed.
End Solo.

(* -- edges() ------------------------------------------------------------------------------ *)
Lemma edges_ok {W} (G : csr W) es : edges_returns G es -> es = graph_edges G.
Proof.
  intros (order & junk & Hp & Hr). unfold edge_stores in Hp. set (seg := fun i => map (fun x : nat * W => (i, fst x, snd x)) (neighbors G i)).
  assert (Hl : forall i, length (neighbors G i) = length (seg i)) by (intros; unfold seg; now rewrite map_length).
  assert (El : sum_before (fun v => length (neighbors G v)) (gn G) = length (graph_edges G)).
  { unfold graph_edges. rewrite flat_map_sum. apply sum_before_ext. intros; apply Hl. }
  rewrite El in Hr. assert (Hp' : Permutation order (combine (seq 0 (length (graph_edges G))) (graph_edges G))).
  { rewrite Hp. unfold graph_edges. fold seg. rewrite <- segments. erewrite flat_map_ext; [reflexivity|]. intros i. cbn beta. rewrite Nat.add_0_l, Hl.
    f_equal. f_equal. apply sum_before_ext. intros; apply Hl. }
  rewrite (run_stores_combine (graph_edges G) 0 (repeat junk (length (graph_edges G))) Hp') in Hr by now rewrite repeat_length.
  rewrite put_all in Hr by apply repeat_length. congruence.
Qed.
Lemma edges_run {W} (G : csr W) : inhabited (edge W) -> exists es, edges_returns G es.
Proof.
  intros [junk]. set (seg := fun i => map (fun x : nat * W => (i, fst x, snd x)) (neighbors G i)).
  assert (Hl : forall i, length (neighbors G i) = length (seg i)) by (intros; unfold seg; now rewrite map_length).
  assert (El : sum_before (fun v => length (neighbors G v)) (gn G) = length (graph_edges G)).
  { unfold graph_edges. rewrite flat_map_sum. apply sum_before_ext. intros; apply Hl. }
  exists (graph_edges G), (edge_stores G), junk. split; auto. rewrite El.
  rewrite (run_stores_combine (graph_edges G) 0); [now rewrite put_all by apply repeat_length| |now rewrite repeat_length].
  unfold edge_stores, graph_edges. fold seg. rewrite <- segments. erewrite flat_map_ext; [reflexivity|]. intros i. cbn beta. rewrite Nat.add_0_l, Hl.
    f_equal. f_equal. apply sum_before_ext. intros; apply Hl.
Qed.

Lemma weight_snoc acc e : weight (acc ++ [e]) = (weight acc + wgh e)%Z.
Proof. unfold weight. rewrite map_app, fold_right_app. simpl. generalize (wgh e). induction acc as [|x acc IH]; intros z; simpl; [lia|]. rewrite IH. lia. Qed.
Lemma sorted_before {A} (R : A -> A -> Prop) (l1 : list A) e l2 x : StronglySorted R (l1 ++ e :: l2) -> In x l1 -> R x e.
Proof.
  induction l1 as [|y l1 IH]; simpl; intros H Hx; [contradiction|]. inversion H; subst. destruct Hx as [->|Hx]; auto. rewrite Forall_forall in *. apply H3, in_elt.
Qed.

Section Loop.
  Variable fits : Z -> bool.
  Variable mx n : nat.
  Variable E : list (edge Z).
  Hypothesis HE : forall e, In e E -> src e < n /\ dst e < n.
  Notation kr_loop := (kr_loop fits mx n).
  Notation light e acc := (filter (fun f => wgh f <=? wgh e)%Z acc).

  Record KI (dn acc : list (edge Z)) (m : mem) (wt : Z) : Prop := {
    ki_down : down (par m);
    ki_root : forall x y, root (par m) x = root (par m) y <-> connected (ends dn) x y;
    ki_forest : forest acc;
    ki_incl : incl acc dn;
    ki_span : forall e, In e dn -> connected (ends (light e acc)) (src e) (dst e);
    ki_wt : wt = weight acc }.

  Lemma ki_init : KI [] [] {| par := fun x => x; aux := fun _ => None |} 0%Z.
  Proof.
    assert (Hd : down (fun x => x)) by (intros x; auto). split; simpl; auto.
    - intros x y. rewrite !root_self by auto. rewrite conn_nil. tauto.
    - intros l1 e l2 X. destruct l1; discriminate.
    - apply incl_refl.
    - intros e [].
  Qed.
  Lemma light_incl e acc acc' : incl acc acc' -> incl (ends (light e acc)) (ends (light e acc')).
  Proof.
    intros H x Hx. apply in_map_iff in Hx as (f & <- & Hf). apply in_map_iff. exists f. split; auto. apply filter_In in Hf as [H1 H2]. apply filter_In. auto.
  Qed.
  Lemma light_all e dn acc : incl acc dn -> (forall f, In f dn -> (wgh f <= wgh e)%Z) -> light e acc = acc.
  Proof. intros H1 H2. apply filter_all. intros x Hx. apply Z.leb_le. auto. Qed.
  Lemma ki_conn dn acc m wt u v : KI dn acc m wt -> connected (ends dn) u v -> connected (ends acc) u v.
  Proof.
    intros H. apply conn_closed. intros a b Hab. apply in_map_iff in Hab as (e & Ee & He). injection Ee as <- <-. apply (ki_span H) in He.
    eapply conn_incl; [|exact He]. unfold ends. intros x Hx. apply in_map_iff in Hx as (f & <- & Hf). apply filter_In in Hf as [Hf _]. apply in_map_iff. eauto.
  Qed.
  Lemma snoc_conn (dn : list (edge Z)) e x y : connected (ends (dn ++ [e])) x y <-> connected ((src e, dst e) :: ends dn) x y.
  Proof. apply conn_same. intros p. unfold ends. rewrite map_app, in_app_iff. simpl. tauto. Qed.
  Lemma ki_skip dn acc m m' wt e : KI dn acc m wt -> keeps m m' -> root (par m) (src e) = root (par m) (dst e) ->
    (forall f, In f dn -> (wgh f <= wgh e)%Z) -> KI (dn ++ [e]) acc m' wt.
  Proof.
    intros H [K1 K2] Hr Hs. apply (ki_root H) in Hr as Hc. constructor; auto; try apply H.
    - intros x y. rewrite !K2, (ki_root H), snoc_conn. split; [apply conn_incl; intros z; now right|]. apply conn_closed. intros a b [Eab|Hab]; [injection Eab as <- <-; auto|now apply rst_step].
    - intros x Hx. apply in_app_iff. left. now apply (ki_incl H).
    - intros f Hf. apply in_app_iff in Hf as [Hf|[<-|[]]]; [now apply (ki_span H)|]. rewrite (light_all e (ki_incl H) Hs). eapply ki_conn; eauto.
  Qed.
  Lemma ki_add dn acc m m' wt e : KI dn acc m wt -> down (par m') -> root (par m) (src e) <> root (par m) (dst e) ->
    (forall x, root (par m') x = if root (par m) x =? Nat.max (root (par m) (src e)) (root (par m) (dst e))
                                  then Nat.min (root (par m) (src e)) (root (par m) (dst e)) else root (par m) x) ->
    (forall f, In f dn -> (wgh f <= wgh e)%Z) -> KI (dn ++ [e]) (acc ++ [e]) m' (wt + wgh e)%Z.
  Proof.
    intros H Hd Hne Hr Hs. constructor; auto.
    - intros x y. rewrite snoc_conn, conn_cons, <- !(ki_root H). rewrite !Hr. generalize dependent (root (par m) (src e)). intros a Hne _. generalize dependent (root (par m) (dst e)). intros b Hne.
      destruct (Nat.eqb_spec (root (par m) x) (Nat.max a b)), (Nat.eqb_spec (root (par m) y) (Nat.max a b)); lia.
    - apply forest_snoc; [apply H|]. intros Hc. apply Hne. apply (ki_root H). eapply conn_incl; [|exact Hc].
      intros z Hz. apply in_map_iff in Hz as (f & <- & Hf). apply in_map_iff. exists f. split; auto. now apply (ki_incl H).
    - intros x Hx. apply in_app_iff in Hx as [Hx|Hx]; apply in_app_iff; auto. left. now apply (ki_incl H).
    - intros f Hf. apply in_app_iff in Hf as [Hf|[<-|[]]].
      + eapply conn_incl; [|apply (ki_span H); exact Hf]. apply light_incl. intros z Hz. apply in_app_iff. auto.
      + apply rst_step. apply in_map_iff. exists e. split; auto. apply filter_In. split; [apply in_app_iff; right; now left|]. apply Z.leb_refl.
    - rewrite weight_snoc, (ki_wt H). auto.
  Qed.
  Lemma forest_small (T : list (edge Z)) : T <> [] -> incl T E -> forest T -> length T < n.
  Proof.
    intros Hne Hi Hf. assert (Hn : 0 < n) by (destruct T as [|e T]; [congruence|]; destruct (@HE _ (Hi e (or_introl eq_refl))); lia).
    enough (length T <= length (map (fun i => (0, i)) (seq 1 (n - 1)))) by (rewrite map_length, seq_length in H; lia).
    apply (@forest_bound_from _ _ []); auto. intros e He. destruct (@HE _ (Hi e He)) as [H1 H2]. simpl.
    assert (X : forall v, v < n -> connected (map (fun i => (0, i)) (seq 1 (n - 1))) 0 v).
    { intros v Hv. destruct v as [|v]; [apply rst_refl|]. apply rst_step. apply in_map_iff. exists (S v). split; auto. apply in_seq. lia. }
    eapply rst_trans; [apply rst_sym, X; auto|apply X; auto].
  Qed.

  Hypothesis Hfit : forall T, incl T E -> forest T -> fits (weight T) = true.
  Lemma loop_ok es m acc wt o : kr_loop es m acc wt o -> forall dn, KI dn acc m wt -> Permutation (dn ++ es) E ->
    StronglySorted (fun e f => (wgh e <= wgh f)%Z) (dn ++ es) -> exists T m' wt', o = Some T /\ KI (dn ++ es) T m' wt'.
  Proof.
    induction 1 as [m acc wt|e es m a m1 m2 acc wt o H1 H2 H IH|e es m a b m1 m2 r m3 acc wt o H1 H2 Hab H3 Hf Hl H IH|e es m a b m1 m2 r m3 acc wt H1 H2 Hab H3 Hf]; intros dn HI Hp Hs.
    - rewrite app_nil_r. eauto.
    - assert (He : In e E) by (apply (Permutation_in _ Hp), in_elt). destruct (@HE _ He) as [Hu Hv].
      destruct (@find_solo n (src e) m (ki_down HI) Hu) as (m1' & S1 & K1). destruct (solo_det S1 H1) as [-> ->].
      destruct (@find_solo n (dst e) m1' (proj1 K1) Hv) as (m2' & S2 & K2). destruct (solo_det S2 H2) as [E2 ->]. rewrite (proj2 K1) in E2.
      replace (dn ++ e :: es) with ((dn ++ [e]) ++ es) in * by (now rewrite <- app_assoc). apply IH; auto.
      eapply ki_skip; eauto; [eapply keeps_trans; eauto|]. intros f Hf. rewrite <- app_assoc in Hs. apply (@sorted_before _ _ _ _ _ _ Hs Hf).
    - assert (He : In e E) by (apply (Permutation_in _ Hp), in_elt). destruct (@HE _ He) as [Hu Hv].
      destruct (@find_solo n (src e) m (ki_down HI) Hu) as (m1' & S1 & K1). destruct (solo_det S1 H1) as [-> ->].
      destruct (@find_solo n (dst e) m1' (proj1 K1) Hv) as (m2' & S2 & K2). destruct (solo_det S2 H2) as [E2 ->]. rewrite (proj2 K1) in E2. subst b.
      pose proof (keeps_trans K1 K2) as K. destruct (@unite_solo n mx (src e) (dst e) m2' (proj1 K) Hu Hv) as (r' & m3' & S3 & D3 & R3); [rewrite !(proj2 K); auto|].
      destruct (solo_det S3 H3) as [-> ->]. replace (dn ++ e :: es) with ((dn ++ [e]) ++ es) in * by (now rewrite <- app_assoc). apply IH; auto.
      eapply ki_add; eauto; [intros x; rewrite R3, !(proj2 K); reflexivity|]. intros f Hf'. rewrite <- app_assoc in Hs. apply (@sorted_before _ _ _ _ _ _ Hs Hf').
    - exfalso. assert (He : In e E) by (apply (Permutation_in _ Hp), in_elt). destruct (@HE _ He) as [Hu Hv].
      destruct (@find_solo n (src e) m (ki_down HI) Hu) as (m1' & S1 & K1). destruct (solo_det S1 H1) as [-> ->].
      destruct (@find_solo n (dst e) m1' (proj1 K1) Hv) as (m2' & S2 & K2). destruct (solo_det S2 H2) as [E2 ->]. rewrite (proj2 K1) in E2. subst b.
      pose proof (keeps_trans K1 K2) as K. destruct (@unite_solo n mx (src e) (dst e) m2' (proj1 K) Hu Hv) as (r' & m3' & S3 & D3 & R3); [rewrite !(proj2 K); auto|].
      destruct (@ki_add dn acc m m3' wt e HI D3 Hab) as [_ _ F1 F2 _ F3]; [intros x; rewrite R3, !(proj2 K); reflexivity|intros f Hf'; apply (@sorted_before _ _ _ _ _ _ Hs Hf')|].
      assert (F4 : incl (acc ++ [e]) E) by (intros x Hx; apply (Permutation_in _ Hp); apply F2 in Hx; rewrite in_app_iff in *; simpl in *; tauto).
      destruct Hf as [Hf|Hf]; [rewrite F3, Hfit in Hf; auto; discriminate|]. pose proof (@forest_small (acc ++ [e])) as X. rewrite app_length in X. simpl in X.
      assert (acc ++ [e] <> []) by (intros Y; now apply app_eq_nil in Y as [_ Y]). specialize (X H F4 F1). lia.
  Qed.
  Lemma loop_runs es : forall dn m acc wt, KI dn acc m wt -> Permutation (dn ++ es) E ->
    StronglySorted (fun e f => (wgh e <= wgh f)%Z) (dn ++ es) -> exists o, kr_loop es m acc wt o.
  Proof.
    induction es as [|e es IH]; intros dn m acc wt HI Hp Hs; [eexists; constructor|].
    assert (He : In e E) by (apply (Permutation_in _ Hp), in_elt). destruct (@HE _ He) as [Hu Hv].
    destruct (@find_solo n (src e) m (ki_down HI) Hu) as (m1 & S1 & K1).
    destruct (@find_solo n (dst e) m1 (proj1 K1) Hv) as (m2 & S2 & K2). rewrite (proj2 K1) in S2. pose proof (keeps_trans K1 K2) as K.
    assert (Hs' : forall f, In f dn -> (wgh f <= wgh e)%Z) by (intros f Hf'; apply (@sorted_before _ _ _ _ _ _ Hs Hf')).
    assert (Ed : dn ++ e :: es = (dn ++ [e]) ++ es) by (now rewrite <- app_assoc). rewrite Ed in *.
    destruct (Nat.eq_dec (root (par m) (src e)) (root (par m) (dst e))) as [Hr|Hr].
    - destruct (IH (dn ++ [e]) m2 acc wt) as (o & Ho); auto; [eapply ki_skip; eauto|]. exists o. rewrite <- Hr in S2. eapply kr_same; eauto.
    - destruct (@unite_solo n mx (src e) (dst e) m2 (proj1 K) Hu Hv) as (r' & m3 & S3 & D3 & R3); [rewrite !(proj2 K); auto|].
      destruct (fits (wt + wgh e)) eqn:Ef; [|eexists; eapply kr_bad; eauto]. destruct (Nat.lt_ge_cases (length acc) n) as [Hl|Hl]; [|eexists; eapply kr_bad; eauto].
      destruct (IH (dn ++ [e]) m3 (acc ++ [e]) (wt + wgh e)%Z) as (o & Ho); auto.
      + eapply ki_add; eauto. intros x. rewrite R3, !(proj2 K). reflexivity.
      + exists o. eapply kr_join; eauto.
  Qed.
End Loop.
