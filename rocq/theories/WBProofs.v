(* Proofs for C44 and C55. *)
From Coq Require Import Permutation.
From Verif Require Import Base ListUtil BKModel BKSpec BKProofs BKProps KCProofs WBModel WBSpec.

(* -- the machine ----------------------------------------------------------------------------- *)
Lemma calls_In outw L c : In c (calls outw L) <-> In (c_src c) L /\ In (c_dst c, c_wgh c) (outw (c_src c)).
Proof.
  unfold calls. rewrite in_flat_map. split.
  - intros (s & Hs & H). apply in_map_iff in H as ([u w] & <- & H). unfold c_src, c_dst, c_wgh. simpl. auto.
  - intros (Hs & H). exists (c_src c). split; auto. apply in_map_iff. exists (c_dst c, c_wgh c). split; auto.
    destruct c as [[s d] w]. reflexivity.
Qed.

Lemma outputs_In {pc} (result : pc -> option (option nat)) cs pcs v x :
  In (v, x) (outputs result cs pcs) <->
  exists i c p, nth_error cs i = Some c /\ nth_error pcs i = Some p /\ result p = Some (Some x) /\ c_dst c = v.
Proof.
  unfold outputs. revert pcs. induction cs as [|c cs IH]; intros [|p pcs]; simpl.
  - split; [tauto|]. intros ([|i] & c & p & H & _); discriminate.
  - split; [tauto|]. intros ([|i] & c & q & H & _); discriminate.
  - split; [tauto|]. intros ([|i] & c' & p & _ & H & _); discriminate.
  - rewrite in_app_iff, IH. split.
    + intros [H|(i & c' & p' & H)]; [|exists (S i), c', p'; exact H].
      exists 0, c, p. destruct (result p) as [[y|]|]; try contradiction. destruct H as [H|[]]. injection H as <- <-. auto.
    + intros ([|i] & c' & p' & H1 & H2 & H3 & H4); [|right; exists i, c', p'; auto].
      simpl in H1, H2. injection H1 as ->. injection H2 as ->. left. rewrite H3. left. congruence.
Qed.

Lemma outputs_NoDup {pc} (result : pc -> option (option nat)) cs pcs :
  (forall i j c c' p p' x y, nth_error cs i = Some c -> nth_error cs j = Some c' -> nth_error pcs i = Some p -> nth_error pcs j = Some p' ->
     result p = Some (Some x) -> result p' = Some (Some y) -> c_dst c = c_dst c' -> i = j) ->
  NoDup (map fst (outputs result cs pcs)).
Proof.
  unfold outputs. revert pcs. induction cs as [|c cs IH]; intros [|p pcs] H; simpl; try constructor.
  assert (HI : NoDup (map fst (flat_map (fun cp => match result (snd cp) with Some (Some x) => [(c_dst (fst cp), x)] | _ => [] end) (combine cs pcs)))).
  { apply IH. intros i j c1 c2 p1 p2 x y A B C E F G I. enough (S i = S j) by lia. apply (H (S i) (S j) c1 c2 p1 p2 x y); auto. }
  destruct (result p) as [[x|]|] eqn:E; auto. simpl. constructor; auto.
  intros Hin. apply in_map_iff in Hin as ([v y] & Ev & Hin). simpl in Ev. subst v.
  apply (outputs_In result cs pcs) in Hin as (i & c' & p' & H1 & H2 & H3 & H4).
  enough (0 = S i) by discriminate. apply (H 0 (S i) c c' p p' x y); auto.
Qed.

Section MachineP.
  Context {M pc : Type} (act : M -> call -> pc -> M * pc).
  Lemma exec_inv (cs : list call) (I : M * list pc -> Prop) :
    (forall m pcs i c p, I (m, pcs) -> nth_error cs i = Some c -> nth_error pcs i = Some p ->
       I (fst (act m c p), lset pcs i (snd (act m c p)))) ->
    forall sched st, I st -> I (exec act cs sched st).
  Proof.
    intros Hs. unfold exec. induction sched as [|i sched IH]; intros st H; simpl; auto. apply IH. unfold step.
    destruct (nth_error cs i) as [c|] eqn:Ec; auto. destruct (nth_error (snd st) i) as [p|] eqn:Ep; auto.
    destruct st as [m pcs]. simpl in *. specialize (Hs m pcs i c p H Ec Ep). destruct (act m c p). exact Hs.
  Qed.
  Lemma exec_length cs sched : forall st, length (snd (exec act cs sched st)) = length (snd st).
  Proof.
    intros st. apply (exec_inv cs (fun st' => length (snd st') = length (snd st))); auto.
    intros m pcs i c p H _ _. simpl. now rewrite length_lset.
  Qed.
  Lemma exec_app cs s1 s2 st : exec act cs (s1 ++ s2) st = exec act cs s2 (exec act cs s1 st).
  Proof. unfold exec. apply fold_left_app. Qed.

  Fixpoint iter (k : nat) (m : M) (c : call) (p : pc) : M * pc :=
    match k with 0 => (m, p) | S k => let (m', p') := act m c p in iter k m' c p' end.
  Lemma exec_iter cs i c : nth_error cs i = Some c -> forall k m pcs p, nth_error pcs i = Some p ->
    exec act cs (repeat i k) (m, pcs) = (fst (iter k m c p), lset pcs i (snd (iter k m c p))).
  Proof.
    intros Hc. induction k as [|k IH]; intros m pcs p Hp; simpl.
    - f_equal. apply list_ext_nth_error. intros j. destruct (Nat.eq_dec i j) as [<-|Hne].
      + rewrite nth_error_lset_same; auto. apply nth_error_Some. congruence.
      + now rewrite nth_error_lset_other.
    - unfold step at 1. simpl. rewrite Hc, Hp. destruct (act m c p) as [m' p'] eqn:E.
      assert (Hi : i < length pcs) by (apply nth_error_Some; congruence).
      rewrite (IH m' (lset pcs i p') p') by now apply nth_error_lset_same.
      f_equal. apply list_ext_nth_error. intros j. destruct (Nat.eq_dec i j) as [<-|Hne].
      + rewrite !nth_error_lset_same; auto; now rewrite ?length_lset.
      + now rewrite !nth_error_lset_other.
  Qed.
End MachineP.

(* -- the loop, abstractly ----------------------------------------------------------------------- *)
Section Loop.
  Variable n : nat.
  Variable outw : nat -> list (nat * nat).
  Variable src o null top : nat.
  Variable bkt : nat -> nat.
  Hypothesis Hsrc : src < n.
  Hypothesis Hg : wgraph_ok n outw.
  Hypothesis Ho : 0 < o.
  Hypothesis Htop : 0 < top.
  Hypothesis Hnull : forall x, x < top -> bkt x < null.
  Hypothesis Hmono : forall x y, x <= y -> bkt x <= bkt y.
  Local Notation path := (wpath outw src).
  Definition bk_of (x : nat) : nat := if x =? top then null else bkt x.
  Definition ring_of (D : nat -> nat) (v : nat) : nat := if v <? n then bk_of (D v) else null.
  Definition D_init (v : nat) : nat := if v =? src then 0 else top.

  Lemma path_lt v x : path v x -> v < n.
  Proof. induction 1; auto. eapply Hg; eauto. Qed.

  (* what a round does *)
  Record round_ok (k : nat) (L : list nat) (D Dn : nat -> nat) (res : list (nat * nat)) : Prop := {
    r_nd : NoDup (map fst res);
    r_le : forall v, Dn v <= D v;
    r_in : forall v, In v (map fst res) <-> Dn v < D v;
    r_prev : forall v p, In (v, p) res -> bk_of p = bk_of (D v);
    r_path : forall v, Dn v < D v -> path v (Dn v);
    r_rel : forall s u w, In s L -> In (u, w) (outw s) -> Dn u <= D s + w;
    r_k : forall v, Dn v < D v -> k <= bkt (Dn v) }.

  Record LI (D : nat -> nat) (s : bst) (d : nat -> nat) (due : nat -> bool) (last : nat) : Prop := {
    l_run : run true o null n (ring_of D_init) any s d due last;
    l_ring : forall v, ring_of D v = d v;
    l_le : forall v, D v <= top;
    l_src : D src = 0;
    l_path : forall v, D v < top -> path v (D v);
    l_due : forall v, due v = true -> v < n /\ D v < top;
    l_rel : forall v u w, v < n -> due v = false -> In (u, w) (outw v) -> D u <= D v + w }.

  Lemma ring_lt D v : v < n -> ring_of D v = bk_of (D v).
  Proof. intros H. unfold ring_of. now rewrite (proj2 (Nat.ltb_lt _ _) H). Qed.
  Lemma bk_lt x : x < top -> bk_of x = bkt x.
  Proof. intros H. unfold bk_of. destruct (Nat.eqb_spec x top); [lia|auto]. Qed.
  Lemma bk_top : bk_of top = null.
  Proof. unfold bk_of. now rewrite Nat.eqb_refl. Qed.

  Lemma LI_start : LI D_init (make true o null n (ring_of D_init)) (ring_of D_init)
    (fun v => (v <? n) && (ring_of D_init v <? null)) (ring_of D_init src).
  Proof.
    assert (E0 : ring_of D_init src = bkt 0).
    { rewrite ring_lt, <- (bk_lt Htop) by auto. unfold D_init. now rewrite Nat.eqb_refl. }
    assert (E1 : forall v, v <> src -> ring_of D_init v = null).
    { intros v Hv. unfold ring_of, D_init. rewrite (proj2 (Nat.eqb_neq _ _) Hv), bk_top. now destruct (v <? n). }
    assert (Hdue : forall v, (v <? n) && (ring_of D_init v <? null) = true -> v = src).
    { intros v Hv. apply andb_prop in Hv as [_ Hv]. apply Nat.ltb_lt in Hv. destruct (Nat.eq_dec v src) as [|Hne]; auto. rewrite E1 in Hv by auto. lia. }
    split.
    - apply run_start; auto.
      + rewrite E0. auto.
      + intros j. destruct (Nat.eq_dec j src) as [->|Hne]; [rewrite E0; apply Nat.lt_le_incl; auto|rewrite E1; auto].
      + intros j Hj H. destruct (Nat.eq_dec j src) as [->|Hne]; [simpl; lia|]. rewrite E1 in H by auto. lia.
      + intros j Hj. apply E1. lia.
    - reflexivity.
    - intros v. unfold D_init. destruct (v =? src); lia.
    - unfold D_init. now rewrite Nat.eqb_refl.
    - intros v. unfold D_init. destruct (Nat.eqb_spec v src) as [->|]; [constructor|lia].
    - intros v Hv. rewrite (Hdue v Hv). split; auto. unfold D_init. now rewrite Nat.eqb_refl.
    - intros v u w Hv Hd Hin. assert (D_init v = top).
      { unfold D_init. destruct (Nat.eqb_spec v src) as [->|]; auto. exfalso. rewrite E0, (proj2 (Nat.ltb_lt _ _) Hsrc), (proj2 (Nat.ltb_lt _ _) (Hnull Htop)) in Hd. discriminate. }
      unfold D_init at 1. destruct (u =? src); lia.
  Qed.

  (* before a round: every shortest walk is accounted for *)
  Lemma frontier_path D s d due last : LI D s d due last -> forall v y, path v y ->
    D v <= y \/ exists z, due z = true /\ D z <= y.
  Proof.
    intros HI. induction 1 as [|v x u w Hp IH Hin]; [left; rewrite (l_src HI); lia|].
    destruct IH as [IH|(z & Hz & IH)]; [|right; exists z; split; auto; lia].
    destruct (due v) eqn:Ed; [right; exists v; split; auto; lia|].
    left. pose proof (l_rel HI _ _ (path_lt Hp) Ed Hin). lia.
  Qed.

  Lemma LI_done D s d due last : LI D s d due last -> (forall v, due v = false) -> distances_are n outw src top D.
  Proof.
    intros HI Hd v Hv. assert (Hs : forall y, path v y -> D v <= y).
    { intros y Hy. destruct (frontier_path HI Hy) as [|(z & Hz & _)]; auto. rewrite Hd in Hz. discriminate. }
    split; [apply (l_le HI)|]. split.
    - intros H. split; [now apply (l_path HI)|exact Hs].
    - intros E y Hy. rewrite <- E. auto.
  Qed.

  Lemma LI_next D s d due last fuel k L s' : LI D s d due last ->
    next_bucket true o fuel (ring_of D) s = Ret (Some (k, L)) s' ->
    L <> [] /\ (forall v, In v L <-> due v = true /\ bkt (D v) = k) /\ (forall v, due v = true -> k <= bkt (D v)) /\ last <= k /\
    (forall v, In v L -> v < n /\ D v < top /\ forall y, path v y -> bkt (D v) <= bkt y).
  Proof.
    intros HI En. rewrite (next_ext true o _ _ (l_ring HI)) in En.
    destruct (C19_next_bucket Ho (l_run HI)) as (_ & _ & Ha). specialize (Ha _ _ _ En). destruct Ha as (Hne & HL & Hmin & Hlast).
    simpl in Hmin, Hlast.
    assert (Hb : forall v, due v = true -> d v = bkt (D v)).
    { intros v Hv. destruct (l_due HI v Hv). rewrite <- (l_ring HI), ring_lt, bk_lt; auto. }
    assert (HL' : forall v, In v L <-> due v = true /\ bkt (D v) = k).
    { intros v. rewrite HL. split; intros [A B]; split; auto; rewrite Hb in *; auto. }
    assert (Hmin' : forall v, due v = true -> k <= bkt (D v)) by (intros v Hv; rewrite <- Hb; auto).
    split; auto. split; auto. split; auto. split; auto.
    intros v Hv. apply HL' in Hv as [Hv Ek]. destruct (l_due HI v Hv) as [A B]. split; auto. split; auto.
    intros y Hy. destruct (frontier_path HI Hy) as [X|(z & Hz & X)]; [now apply Hmono|].
    rewrite Ek. transitivity (bkt (D z)); auto.
  Qed.

  Definition dests (s : bst) (Dn : nat -> nat) (res : list (nat * nat)) : list (nat * option nat) :=
    map (fun vp => (fst vp, get_bucket2 true o null s (bk_of (snd vp)) (bk_of (Dn (fst vp))))) res.

  Lemma LI_round D s d due last fuel k L s' Dn res : LI D s d due last ->
    next_bucket true o fuel (ring_of D) s = Ret (Some (k, L)) s' -> round_ok k L D Dn res ->
    exists d' due', LI Dn (update_seq (dests s' Dn res) s') d' due' k /\
      (forall v, due' v = true <-> (due v = true /\ ~ In v L) \/ Dn v < D v).
  Proof.
    intros HI En R. destruct (LI_next _ HI En) as (Hne & HL & Hmin & Hlast & HLv).
    assert (Hr1 : run true o null n (ring_of D_init) any s' d (fun v => due v && negb (mem v L)) k).
    { rewrite (next_ext true o _ _ (l_ring HI)) in En. eapply run_next; [apply (l_run HI)|exact En]. }
    set (due1 := fun v => due v && negb (mem v L)) in *.
    set (ms := map (fun vp : nat * nat => {| mv_id := fst vp; mv_next := bk_of (Dn (fst vp)); mv_one_arg := false |}) res).
    assert (Eid : map mv_id ms = map fst res) by (unfold ms; now rewrite map_map).
    assert (Hlow : forall v, Dn v < D v -> v < n /\ Dn v < top).
    { intros v Hv. split; [apply (path_lt (r_path R v Hv))|]. pose proof (l_le HI v). lia. }
    assert (Hms : forall m, In m ms -> Dn (mv_id m) < D (mv_id m) /\ mv_next m = bk_of (Dn (mv_id m)) /\ mv_one_arg m = false).
    { intros m Hm. split; [apply (r_in R); rewrite <- Eid; now apply in_map|]. apply in_map_iff in Hm as (vp & <- & _). auto. }
    assert (Ebatch : batch true o null s' d ms = dests s' Dn res).
    { unfold batch, dests, ms. rewrite map_map. apply map_ext_in. intros [v p] Hin. cbn [fst snd mv_id mv_next mv_one_arg].
      rewrite (r_prev R v p Hin). f_equal. f_equal. rewrite <- (l_ring HI). apply ring_lt.
      apply Hlow, (r_in R), in_map_iff. now exists (v, p). }
    assert (Hr2 : run true o null n (ring_of D_init) any (update_seq (dests s' Dn res) s') (moved ms d) (fun v => due1 v || mem v (map mv_id ms)) k).
    { rewrite <- Ebatch. apply run_move; auto.
      - rewrite Eid. apply (r_nd R).
      - intros m Hm. destruct (Hms m Hm) as (A & B & C). destruct (Hlow _ A) as [A1 A2]. split; [|exact I]. rewrite bk_lt in B by auto. split; [rewrite B; auto|].
        split; [simpl; rewrite B; apply (r_k R); auto|]. rewrite C. discriminate. }
    assert (Hdue : forall v, due1 v || mem v (map mv_id ms) = true <-> (due v = true /\ ~ In v L) \/ Dn v < D v).
    { intros v. rewrite Bool.orb_true_iff, Eid, mem_In, (r_in R). unfold due1. rewrite Bool.andb_true_iff, Bool.negb_true_iff, mem_false. tauto. }
    exists (moved ms d), (fun v => due1 v || mem v (map mv_id ms)). split; [|exact Hdue]. split; auto.
    - intros v. unfold moved. destruct (find (fun m => mv_id m =? v) ms) as [m|] eqn:Ef.
      + apply find_some in Ef as [Hm E]. apply Nat.eqb_eq in E. destruct (Hms m Hm) as (A & B & _). rewrite E in *. rewrite B. apply ring_lt. now apply Hlow.
      + rewrite <- (l_ring HI). unfold ring_of. destruct (v <? n); auto. f_equal.
        destruct (Nat.lt_ge_cases (Dn v) (D v)) as [X|X]; [exfalso|pose proof (r_le R v); lia].
        apply (r_in R) in X. rewrite <- Eid in X. apply in_map_iff in X as (m & E & Hm). apply (find_none _ _ Ef) in Hm. rewrite E, Nat.eqb_refl in Hm. discriminate.
    - intros v. pose proof (r_le R v). pose proof (l_le HI v). lia.
    - pose proof (r_le R src). pose proof (l_src HI). lia.
    - intros v Hv. destruct (Nat.lt_ge_cases (Dn v) (D v)) as [X|X]; [now apply (r_path R)|].
      assert (E : Dn v = D v) by (pose proof (r_le R v); lia). rewrite E in *. now apply (l_path HI).
    - intros v Hv. apply Hdue in Hv as [[Hv _]|Hv]; [|now apply Hlow]. destruct (l_due HI v Hv). split; auto. pose proof (r_le R v). lia.
    - intros v u w Hv Hd Hin.
      assert (Hnot : ~ ((due v = true /\ ~ In v L) \/ Dn v < D v)) by (rewrite <- Hdue, Hd; discriminate).
      assert (E : Dn v = D v) by (pose proof (r_le R v); lia). rewrite E.
      destruct (in_dec Nat.eq_dec v L) as [HvL|HvL]; [now apply (r_rel R)|].
      pose proof (r_le R u). assert (due v = false) by (destruct (due v); auto; exfalso; tauto). pose proof (l_rel HI _ _ Hv H0 Hin). lia.
  Qed.

  Lemma LI_answers D s d due last : LI D s d due last ->
    exists fuel r s', next_bucket true o fuel (ring_of D) s = Ret r s'.
  Proof.
    intros HI. destruct (C19_next_bucket Ho (l_run HI)) as ((fuel & r & s' & E) & _). exists fuel, r, s'. now rewrite (next_ext true o _ _ (l_ring HI)).
  Qed.
  Lemma LI_end D s d due last fuel s' : LI D s d due last -> next_bucket true o fuel (ring_of D) s = Ret None s' ->
    distances_are n outw src top D.
  Proof.
    intros HI E. destruct (C19_next_bucket Ho (l_run HI)) as (_ & _ & Ha). rewrite (next_ext true o _ _ (l_ring HI)) in E. specialize (Ha _ _ _ E).
    exact (LI_done HI Ha).
  Qed.
End Loop.
