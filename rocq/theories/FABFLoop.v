(* Bellman-Ford: the rounds. *)
From Coq Require Import ZArith ListDec.
From Verif Require Import Base ListUtil VSModel VSSpec VSProofs EMModel EMSpec EMProps FAModel FASpec FAProofs FABF.
Local Open Scope Z_scope.

Lemma dup_split (p : list nat) : ~ NoDup p -> exists a l1 l2 l3, p = l1 ++ a :: l2 ++ a :: l3.
Proof.
  induction p as [|a p IH]; intros H; [exfalso; apply H; constructor|].
  destruct (in_dec Nat.eq_dec a p) as [Hin|Hin].
  - apply in_split in Hin as (l2 & l3 & ->). exists a, [], l2, l3. auto.
  - destruct IH as (b & l1 & l2 & l3 & ->); [intros X; apply H; now constructor|]. exists b, (a :: l1), l2, l3. auto.
Qed.

Section WWalk.
  Variable n : nat.
  Variable outn inn : nat -> list nat.
  Hypothesis G : graph_ok n outn inn.
  Variable wt : nat -> nat -> Z.
  Notation wwalk := (wwalk outn wt).
  Notation wedge := (wedge outn wt).

  Lemma wedge_In u v w : wedge u v w -> In v (outn u).
  Proof. intros (j & Hj & _). eapply nth_error_In; eauto. Qed.
  Lemma wwalk_lt u p v x : (u < n)%nat -> wwalk u p v x -> forall w, In w p -> (w < n)%nat.
  Proof.
    intros Hu H. induction H as [|p v x w y H IH He]; intros z Hz.
    - destruct Hz as [<-|[]]; auto.
    - destruct Hz as [<-|Hz]; auto. eapply g_out; [eauto| |eapply wedge_In; eauto]. apply IH.
      inversion H; subst; now left.
  Qed.
  Lemma wwalk_head u p v x : wwalk u p v x -> exists p', p = v :: p'.
  Proof. intros H. inversion H; subst; eauto. Qed.
  Lemma wwalk_app u p v x : wwalk u p v x -> forall l w y, wwalk v (l ++ [v]) w y -> wwalk u (l ++ p) w (x + y).
  Proof.
    intros H l. induction l as [|a l IH]; intros w y Hw; simpl in *.
    - inversion Hw as [|? ? ? ? ? Hw' ? E]; subst; [now rewrite Z.add_0_r|]. inversion Hw'.
    - inversion Hw as [|q b c d e Hw' He E]; subst.
      + destruct l; discriminate.
      + rewrite Z.add_assoc. apply ww_S with (v := b); auto.
  Qed.
  Lemma wwalk_split u l1 : forall l2 v w z, wwalk u (l1 ++ v :: l2) w z ->
    exists x y, wwalk u (v :: l2) v x /\ wwalk v (l1 ++ [v]) w y /\ z = x + y.
  Proof.
    induction l1 as [|a l1 IH]; intros l2 v w z H; simpl in *.
    - assert (w = v) by (destruct (wwalk_head H) as [p' E]; congruence). subst w.
      exists z, 0. split; auto. split; [constructor|lia].
    - inversion H as [E1 E2 E3|q b c d e Hw' He E1 E2 E3]; subst.
      + destruct l1; discriminate.
      + destruct (IH l2 v b c Hw') as (x & y & A & B & ->). exists x, (y + e). split; auto. split; [econstructor; eauto|lia].
  Qed.

  (* remove cycles until at most n vertices are left *)
  Lemma shorten u : (u < n)%nat -> forall q p v x, (length p <= q)%nat -> wwalk u p v x ->
    negative_cycle outn wt u \/ exists p' x', wwalk u p' v x' /\ (length p' <= n)%nat /\ x' <= x.
  Proof.
    intros Hu. induction q as [|q IH]; intros p v x Hq H.
    - destruct (wwalk_head H) as [p' ->]. simpl in Hq. lia.
    - destruct (Nat.le_gt_cases (length p) n) as [Hle|Hgt]; [right; exists p, x; split; [auto|split; [auto|lia]]|].
      assert (Hdup : ~ NoDup p).
      { intros Hnd. assert (Hi : incl p (seq 0 n)) by (intros w Hw; apply in_seq; pose proof (wwalk_lt Hu H w Hw); lia).
        pose proof (NoDup_incl_length Hnd Hi) as X. rewrite seq_length in X. lia. }
      destruct (dup_split Hdup) as (a & l1 & l2 & l3 & E).
      subst p. destruct (wwalk_split l1 _ _ H) as (x1 & y & H1 & H2 & ->).
      destruct (wwalk_split (a :: l2) l3 a H1) as (x2 & c & H3 & H4 & ->).
      destruct (Z.ltb_spec c 0) as [Hc|Hc].
      + left. exists a, (a :: l3), x2, ((a :: l2) ++ [a]), c. auto.
      + destruct (IH (l1 ++ a :: l3) v (x2 + y)) as [X|(p' & x' & A & B & C)]; auto.
        * rewrite !app_length in *. simpl in *. rewrite !app_length in *. simpl in *. lia.
        * now apply wwalk_app with (v := a).
        * right. exists p', x'. split; auto. split; auto. lia.
  Qed.
End WWalk.

Section Loop.
  Variable n : nat.
  Variable outn inn : nat -> list nat.
  Hypothesis G : graph_ok n outn inn.
  Variable wt : nat -> nat -> Z.
  Variable m start : nat.
  Hypothesis Hstart : (start < n)%nat.
  Notation wwalk := (wwalk outn wt).
  Notation wedge := (wedge outn wt).
  Definition val (v : nat) (x : Z) : Prop := exists p, wwalk start p v x.
  Lemma val_step u v w x : wedge u v w -> val u x -> val v (x + w).
  Proof. intros He [p Hp]. exists (v :: p). econstructor; eauto. Qed.

  Record LInv (k : nat) (sp : nat -> option Z) (vis : nat -> bool) (ov : bool) (U : vset unit) (F : list nat) : Prop := {
    l_built : built n U (plain F);
    l_vis : forall v, vis v = false;
    l_ov : ov = false;
    l_val : forall v x, sp v = Some x -> val v x;
    l_fin : forall u, In u F -> sp u <> None;
    l_rel : forall u v w x, ~ In u F -> sp u = Some x -> wedge u v w -> ole (sp v) (Some (x + w));
    l_bound : forall p v y, wwalk start p v y -> (length p <= S k)%nat -> ole (sp v) (Some y);
    l_new : forall p v y, In v F -> wwalk start p v y -> (length p <= k)%nat -> ~ ole (Some y) (sp v);
    l_start : sp start <> None }.

  Lemma start_linv : LInv 0 (fset (fun _ => None) start (Some 0)) (fun _ => false) false (vs_sparse n [(start, tt)]) [start].
  Proof.
    split.
    - split; [|now right; left]. split; simpl; repeat constructor; auto.
    - auto.
    - auto.
    - intros v x. destruct (Nat.eq_dec v start) as [->|Hv]; [rewrite fset_same|rewrite fset_other by auto; discriminate].
      intros E. injection E as <-. exists [start]. constructor.
    - intros u [<-|[]]. rewrite fset_same. discriminate.
    - intros u v w x Hn E. rewrite fset_other in E; [discriminate|]. intros ->. apply Hn. now left.
    - intros p v y Hw Hl. inversion Hw as [|q ? ? ? ? Hw' ? E]; subst; [rewrite fset_same; simpl; lia|].
      simpl in Hl. destruct (wwalk_head Hw') as [p' ->]. simpl in Hl. lia.
    - intros p v y _ Hw Hl. destruct (wwalk_head Hw) as [p' ->]. simpl in Hl. lia.
    - rewrite fset_same. discriminate.
  Qed.

  Lemma round_linv k sp vis ov U F sp' vis' ov' U' : LInv k sp vis ov U F ->
    edgeMap_relax wt n outn m U sp vis sp' vis' ov' U' ->
    exists F', LInv (S k) sp' (reset U' vis') (ov || ov') U' F'.
  Proof.
    intros HI HR.
    destruct (relax_round G (l_vis HI) val (fun u v w x => @val_step u v w x) F (l_built HI) (l_val HI) (l_fin HI) HR) as (F' & HO).
    exists F'. pose proof (o_mono HO) as Hm.
    assert (Hstep : forall u v w x, sp u = Some x -> wedge u v w -> ole (sp' v) (Some (x + w))).
    { intros u v w x Ex He. destruct (in_dec Nat.eq_dec u F) as [Hin|Hin].
      - destruct (o_rel HO Hin He) as (z & A & B & C). rewrite Ex in B. simpl in B.
        eapply ole_trans; eauto. simpl. lia.
      - eapply ole_trans; [apply Hm|]. eapply (l_rel HI); eauto. }
    split.
    - apply (o_built HO).
    - intros v. unfold reset. rewrite reset_spec. destruct (in_dec _ _ _) as [X|X]; auto.
      destruct (vis' v) eqn:Ev; auto. exfalso. apply X. apply (o_vis HO) in Ev.
      pose proof (calls_perm tt (built_inv tt (o_built HO))) as Hp. apply (Permutation_map fst) in Hp.
      eapply Permutation_in; [apply Permutation_sym, Hp|]. unfold plain. rewrite map_map. simpl. now rewrite map_id.
    - rewrite (l_ov HI), (o_ov HO). auto.
    - apply (o_val HO).
    - intros u Hu. apply (o_F HO) in Hu. intros E. apply Hu. rewrite E. pose proof (Hm u) as X. rewrite E in X. now destruct (sp u).
    - intros u v w x Hn Ex He. assert (E : sp' u = sp u).
      { destruct (sp' u) as [a|] eqn:E1, (sp u) as [b|] eqn:E2; auto; try (exfalso; apply Hn, (o_F HO); congruence).
        destruct (Z.eq_dec a b) as [->|Hab]; auto. exfalso. apply Hn, (o_F HO). congruence. }
      rewrite E in Ex. now apply Hstep with u.
    - intros p v y Hw Hl. inversion Hw as [E1 E2 E3|q u c w e Hw' He E1 E2 E3]; subst.
      + eapply ole_trans; [apply Hm|]. eapply (l_bound HI); [constructor|simpl; lia].
      + simpl in Hl. assert (X : ole (sp u) (Some c)) by (eapply (l_bound HI); eauto; lia).
        destruct (sp u) as [x|] eqn:Ex; [|destruct X]. simpl in X.
        eapply ole_trans; [eapply Hstep; eauto|]. simpl. lia.
    - intros p v y Hv Hw Hl X. apply (o_F HO) in Hv. apply Hv. apply ole_antisym; auto.
      eapply ole_trans; [|exact X]. eapply (l_bound HI); eauto.
    - pose proof (Hm start) as X. intros E. rewrite E in X. pose proof (l_start HI). now destruct (sp start).
  Qed.

  Lemma loop_linv k sp vis ov U : bf_loop wt n outn m start k sp vis ov U -> exists F, LInv k sp vis ov U F.
  Proof.
    intros H. induction H as [|k sp vis ov U sp' vis' ov' U' H [F HI] Hs Hk HR]; [exists [start]; apply start_linv|].
    eapply round_linv; eauto.
  Qed.

  Lemma reported_negative k sp vis ov U F : LInv k sp vis ov U F -> size U <> 0%nat -> k = n -> negative_cycle outn wt start.
  Proof.
    intros HI Hs ->. rewrite (built_size F (l_built HI)) in Hs. destruct F as [|v F]; [now contradiction Hs|].
    destruct (sp v) as [x|] eqn:Ex; [|exfalso; apply (l_fin HI v); [now left|auto]].
    destruct (l_val HI v Ex) as [p Hp].
    destruct (shorten G Hstart (le_n _) Hp) as [X|(p' & x' & A & B & C)]; auto.
    exfalso. apply (l_new HI (or_introl eq_refl) A B). rewrite Ex. simpl. lia.
  Qed.

  Lemma done_relaxed k sp vis ov U F : LInv k sp vis ov U F -> size U = 0%nat ->
    forall u v p y x, wwalk u p v y -> sp u = Some x -> ole (sp v) (Some (x + y)).
  Proof.
    intros HI Hs u v p y x Hw Ex. rewrite (built_size F (l_built HI)) in Hs. destruct F; [|discriminate].
    induction Hw as [|p v y w e Hw IH He].
    - rewrite Ex. simpl. lia.
    - destruct (sp v) as [z|] eqn:Ez; [|destruct IH]. simpl in IH.
      eapply ole_trans; [eapply (l_rel HI); eauto|]. simpl. lia.
  Qed.

  Lemma done_no_negative k sp vis ov U F : LInv k sp vis ov U F -> size U = 0%nat -> ~ negative_cycle outn wt start.
  Proof.
    intros HI Hs (v & p & x & q & y & H1 & H2 & Hy).
    destruct (sp start) as [a|] eqn:Ea; [|now apply (l_start HI)].
    pose proof (done_relaxed HI Hs H1 Ea) as X. destruct (sp v) as [b|] eqn:Eb; [|destruct X].
    pose proof (done_relaxed HI Hs H2 Eb) as Y. rewrite Eb in Y. simpl in Y. lia.
  Qed.

  Lemma done_shortest k sp vis ov U F : LInv k sp vis ov U F -> size U = 0%nat ->
    forall v, match sp v with Some x => shortest outn wt start v x | None => forall p y, ~ wwalk start p v y end.
  Proof.
    intros HI Hs v.
    assert (E0 : ole (sp start) (Some 0)) by (eapply (l_bound HI); [constructor|simpl; lia]).
    destruct (sp start) as [a|] eqn:Ea; [|destruct E0]. simpl in E0.
    assert (Hle : forall p y, wwalk start p v y -> ole (sp v) (Some (a + y))) by (intros; eapply done_relaxed; eauto).
    destruct (sp v) as [x|] eqn:Ex.
    - split; [apply (l_val HI v Ex)|]. intros p y Hw. apply Hle in Hw. simpl in Hw. lia.
    - intros p y Hw. apply Hle in Hw. destruct Hw.
  Qed.

  Lemma bf_bound k sp vis ov U : bf_loop wt n outn m start k sp vis ov U -> (k <= n)%nat.
  Proof. intros H. induction H; lia. Qed.

  Lemma bf_progress k sp vis ov U : bf_loop wt n outn m start k sp vis ov U ->
    exists sp' vis' ov' U', edgeMap_relax wt n outn m U sp vis sp' vis' ov' U'.
  Proof.
    intros H. apply loop_linv in H as [F HI].
    eapply (relax_progress G) with (val := val) (F := F); [apply (l_vis HI)|apply val_step|apply (l_built HI)|apply (l_val HI)|apply (l_fin HI)].
  Qed.
  Lemma bf_ends : exists sp rep, bf_returns wt n outn m start sp rep.
  Proof.
    assert (H : forall j, (j <= n)%nat -> (exists sp rep, bf_returns wt n outn m start sp rep)
              \/ exists sp vis ov U, bf_loop wt n outn m start j sp vis ov U).
    { induction j as [|j IH]; intros Hj; [right; do 4 eexists; apply bf_start|].
      destruct IH as [H|(sp & vis & ov & U & H)]; [lia|auto|].
      destruct (Nat.eq_dec (size U) 0) as [E|E]; [left; exists sp, false, j, vis, U, ov; auto|].
      destruct (bf_progress H) as (sp' & vis' & ov' & U' & HR). right. do 4 eexists. eapply bf_round; eauto. lia. }
    destruct (H n (le_n _)) as [X|(sp & vis & ov & U & X)]; auto.
    destruct (Nat.eq_dec (size U) 0) as [E|E]; [exists sp, false, n, vis, U, ov; auto|].
    exists sp, true, n, vis, U, ov. auto.
  Qed.
End Loop.
