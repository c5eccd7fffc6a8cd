(* Whole runs of the union-find with randomized linking by rank. *)
From Coq Require Import Permutation Relations.
From Verif Require Import Base ListUtil UFSpec FRSpec FRProofs CTSpec SPProofs UFProps
  JAModel JATree JAProofs JASys JAForest JAWait.
Unset Strict Implicit.

(* the initial parents as edges *)
Definition links (n : nat) (P0 : nat -> nat) : list (nat * nat) := map (fun x => (x, P0 x)) (seq 0 n).

Section Runs.
  Variable n : nat.
  Variable two : bool.

  Lemma links_P0 P0 x : x < n -> In (x, P0 x) (links n P0).
  Proof. intros H. unfold links. apply in_map_iff. exists x. split; auto. apply in_seq. lia. Qed.
  Lemma sound0 (C : nat -> nat -> Prop) P0 E0 : (forall x y, C x y -> C y x) -> (forall x y z, C x y -> C y z -> C x z) ->
    flat n P0 -> (forall x, x < n -> C x (P0 x)) -> sound n C (initialize P0 E0).
  Proof.
    intros Cs Ct Hf HC x y Hx Hy (r & A & B). rewrite (rooted0 Hf Hx A) in *. pose proof (rooted0 Hf Hy B) as E.
    eapply Ct; [apply HC; auto|]. rewrite E. auto.
  Qed.
  Lemma inserted_in js x y : In (x, y) (inserted js) <-> In (Insert x y) js.
  Proof.
    unfold inserted. rewrite in_flat_map. split.
    - intros (j & Hj & H). destruct j; simpl in H; try easy. destruct H as [H|[]]. injection H as <- <-. auto.
    - intros H. exists (Insert x y). split; simpl; auto.
  Qed.
  Lemma started_in sched js j : In j (started sched js) -> In j js.
  Proof.
    unfold started. rewrite in_flat_map. intros (c & _ & H). destruct (nth_error js (fst c)) as [j'|] eqn:E; [|easy].
    destruct H as [<-|[]]. eapply nth_error_In; eauto.
  Qed.

  Section One.
    Variables (P0 : nat -> nat) (E0 : nat -> option (nat * nat)) (js : list job) (sched : list (nat * bool)).
    Hypothesis Hf : flat n P0.
    Hypothesis Hr : in_range n js.
    Let s := exec n two sched (init (initialize P0 E0) js).

    Lemma run_inv : exists key, inv n js key s /\ later n (key0 P0) (initialize P0 E0) key (fst s).
    Proof. apply (exec_inv two sched (start_ok (good0 E0 Hf) Hr)). Qed.
    Lemma run_no_fault t : nth_error (snd s) t <> Some Fault.
    Proof.
      destruct run_inv as (key & [_ F] & _). intros E. destruct (Forall2_nth F E) as (j & _ & J). exact (jok_tok J).
    Qed.
    Lemma run_root x : x < n -> exists r, r < n /\ tree_root (up (fst s)) x r.
    Proof.
      destruct run_inv as (key & [G _] & _). intros Hx. destruct (rooted_ex (good_tree G) Hx) as (r & Hr' & R).
      exists r. split; auto. now apply rooted_tree.
    Qed.
    Lemma run_rank x : x < n -> rk (fst s) x <= n.
    Proof. destruct run_inv as (key & [G _] & _). intros Hx. destruct (g_bound G Hx). lia. Qed.
    Lemma run_sound (C : nat -> nat -> Prop) : (forall x y, C x y -> C y x) -> (forall x y z, C x y -> C y z -> C x z) ->
      (forall x, x < n -> C x (P0 x)) -> (forall x y, In (x, y) (inserted (started sched js)) -> C x y) ->
      forall x y, x < n -> y < n -> same_tree (up (fst s)) x y -> C x y.
    Proof.
      intros Cs Ct HP HE x y Hx Hy H. apply same_spec in H. revert x y Hx Hy H.
      apply (@exec_sound n two C js Cs Ct sched _ _ (start_ok (good0 E0 Hf) Hr)); auto. now apply sound0.
    Qed.
    Lemma run_joined t x y r : nth_error js t = Some (Insert x y) -> returned s t r -> same_tree (up (fst s)) x y.
    Proof.
      intros Ej Er. destruct run_inv as (key & [_ F] & _). destruct (Forall2_nth F Er) as (j & Ej' & J).
      assert (j = Insert x y) by congruence. subst j. destruct J as (_ & _ & [[J _]|(r' & _ & J)]); [discriminate|]. now apply same_spec.
    Qed.
    Lemma run_P0 x : x < n -> same_tree (up (fst s)) x (P0 x).
    Proof.
      intros Hx. destruct run_inv as (key & _ & L). apply same_spec. destruct (Hf Hx) as [A B]. apply (l_same L); auto.
      exists (P0 x). split; [apply rooted_up; rewrite up0|]; apply r_here; now rewrite up0.
    Qed.
    Lemma run_complete (E : list (nat * nat)) : (forall x y, In (x, y) E -> x < n /\ y < n /\ same_tree (up (fst s)) x y) ->
      forall x y, connected E x y -> x < n -> same_tree (up (fst s)) x y.
    Proof.
      intros HE x y C Hx.
      assert (X : x = y \/ (x < n /\ y < n /\ same (up (fst s)) x y)).
      { clear Hx. induction C as [a b C|a|a b _ IH|a b c _ IH1 _ IH2].
        - right. destruct (HE _ _ C) as (A & B & D). rewrite same_spec. auto.
        - auto.
        - destruct IH as [->|(A & B & D)]; auto. right. auto using same_sym.
        - destruct IH1 as [->|(A & B & D)]; auto. destruct IH2 as [<-|(A' & B' & D')]; auto. right. eauto using same_trans. }
      apply same_spec. destruct X as [->|(_ & _ & X)]; auto.
      destruct run_inv as (key & [G _] & _). eapply same_refl; eauto using good_tree.
    Qed.
    Lemma run_calls_end t : t < length js -> call_steps n < turns t sched -> exists r, returned s t r.
    Proof.
      intros Ht Hc. pose proof (start_ok (good0 E0 Hf) Hr) as I.
      assert (Hst : exists st, nth_error (snd (init (initialize P0 E0) js)) t = Some st).
      { simpl. rewrite nth_error_map. destruct (nth_error js t) eqn:E; [simpl; eauto|]. apply nth_error_None in E. lia. }
      destruct Hst as (st & Est). destruct (@exec_rem n two js sched _ _ t st I Est) as (st' & E & [D|(key & _ & R)]).
      - fold s in E. destruct st'; try discriminate; [eexists; exact E|]. exfalso. eapply run_no_fault; eauto.
      - exfalso. cut (rem n (key0 P0) (initialize P0 E0) st <= call_steps n).
        { intros X. change (fst (init (initialize P0 E0) js)) with (initialize P0 E0) in R. lia. }
        unfold rem, call_steps. pose proof (phi_max n (initialize P0 E0)) as X.
        assert (K n * phi n (initialize P0 E0) <= K n * (n * (n + 1))) by now apply Nat.mul_le_mono_l.
        assert (cost n (key0 P0) st <= K n).
        { clear. unfold K. destruct st; simpl cost; try lia; pose proof (fm_max n (key0 P0) f); lia. }
        destruct (bad _ _); lia.
    Qed.

    (* the edges recorded *)
    Lemma run_forest G : incl (inserted js) G -> all_returned s (length js) ->
      incl (edges_of n (initialize P0 E0)) G -> (forall x y, In (x, y) G -> x < n /\ y < n) ->
      forest (unweighted (edges_of n (initialize P0 E0))) ->
      (forall x, x < n -> P0 x = x -> E0 x = None) ->
      (forall x y, x < n -> y < n -> (connected (edges_of n (initialize P0 E0)) x y <-> P0 x = P0 y)) ->
      incl (edges_of n (fst s)) G /\ forest' (edges_of n (fst s)) /\
      forall x y, x < n -> y < n -> (connected (edges_of n (fst s)) x y <-> same_tree (up (fst s)) x y).
    Proof.
      intros Hi Ha H0 HG Hfo Hn Hc. apply forest_unweighted in Hfo.
      pose proof (start_ok (good0 E0 Hf) Hr) as I.
      destruct (@exec_forest n two G js) with (sched := sched) (s := init (initialize P0 E0) js) (key := key0 P0) (g := E0) as (g & [F1 F2 F3 F4] & [P1 P2]); auto.
      - intros x y H. apply Hi. now apply inserted_in.
      - split.
        + exact Hfo.
        + intros x y H. assert (HI : In (x, y) G) by now apply H0. destruct (HG _ _ HI). auto.
        + intros x y Hx Hy. change (glist E0 (seq 0 n)) with (edges_of n (initialize P0 E0)). rewrite Hc by auto.
          change (fst (init (initialize P0 E0) js)) with (initialize P0 E0). destruct (Hf Hx) as [A B], (Hf Hy) as [A' B']. split.
          * intros E. exists (P0 x). split; apply rooted_up; rewrite up0; [|rewrite <- E]; apply r_here; now rewrite up0.
          * intros (r & X & Y). rewrite <- (rooted0 Hf Hx X). now apply (rooted0 Hf Hy Y).
        + intros x Hx Hrt. simpl in Hrt. apply Nat.eqb_eq in Hrt. apply Hn; auto.
      - split; simpl; [auto|]. intros t x0 y0 u v x H. rewrite nth_error_map in H. destruct (nth_error js t) as [[]|]; discriminate.
      - fold s in F1, F2, F3, F4, P1, P2.
        assert (E : edges_of n (fst s) = glist g (seq 0 n)).
        { unfold edges_of. apply (@glist_ext (ed (fst s))). intros x Hx. apply in_seq in Hx. destruct (P1 x) as [E|(t & x0 & y0 & u & v & Et & _)]; [lia|auto|].
          exfalso. assert (Hlt : t < length js).
          { destruct run_inv as (key & [_ F] & _). destruct (Forall2_nth F Et) as (j & Ej & _). apply nth_error_Some. congruence. }
          destruct (Ha t Hlt) as (r & Er). unfold returned in Er. congruence. }
        rewrite E. split; [intros [x y] H; now apply F2|]. split; auto. intros x y Hx Hy. rewrite F3 by auto. apply same_spec.
    Qed.
  End One.

  Lemma trees_never_split P0 E0 js sched1 sched2 x y : flat n P0 -> in_range n js -> x < n -> y < n ->
    same_tree (up (fst (exec n two sched1 (init (initialize P0 E0) js)))) x y ->
    same_tree (up (fst (exec n two (sched1 ++ sched2) (init (initialize P0 E0) js)))) x y.
  Proof.
    intros Hf Hr Hx Hy H. destruct (@run_inv P0 E0 js sched1 Hf Hr) as (k1 & I1 & _).
    unfold exec at 1. rewrite fold_left_app. fold (exec n two sched1 (init (initialize P0 E0) js)).
    destruct (exec_inv two sched2 I1) as (k2 & _ & L). apply same_spec. apply (l_same L); auto. now apply same_spec.
  Qed.

  (* the labels written by the last pass *)
  Lemma final_labels key m sched : good n key m -> 
    let s := exec n two sched (init m (labels_pass n)) in
    all_returned s n -> forall i, i < n -> tree_root (up m) i (label_of s i) /\ label_of s i < n.
  Proof.
    intros G s Ha i Hi.
    assert (Hr : in_range n (labels_pass n)).
    { intros j Hj. unfold labels_pass in Hj. apply in_map_iff in Hj as (k & <- & Hk). apply in_seq in Hk. lia. }
    pose proof (start_ok G Hr) as I. destruct (exec_inv two sched I) as (k' & [G' F'] & L). fold s in G', F', L.
    destruct (@labs_ok n two (labels_pass n) sched _ _ I) as [Hl Hrt].
    { apply Forall_forall. intros st Hst. simpl in Hst. apply in_map_iff in Hst as (j & <- & Hj). unfold labels_pass in Hj.
      apply in_map_iff in Hj as (k & <- & _). left. exists (F0 k). split; auto. discriminate. }
    fold s in Hl, Hrt. destruct (Ha i Hi) as (r & Er). unfold label_of. unfold returned in Er. rewrite Er.
    destruct (Forall2_nth F' Er) as (j & Ej & J). unfold labels_pass in Ej. rewrite nth_error_map in Ej.
    rewrite (nth_error_nth' (seq 0 n) 0) in Ej by (rewrite seq_length; auto). rewrite seq_nth in Ej by auto. injection Ej as <-.
    destruct J as (_ & [(f & J & _)|(r' & J & Hr' & S)]); [discriminate|]. injection J as <-. split; auto.
    rewrite Forall_forall in Hl. specialize (Hl _ (nth_error_In _ _ Er)). destruct Hl as [(f & Hl & _)|(r' & Hl & Hroot)]; [discriminate|].
    injection Hl as <-. rewrite Hrt in Hroot. simpl in Hroot.
    apply rooted_tree. destruct (rooted_ex (good_tree G) Hi) as (q & Hq & Rq).
    assert (Sq : same (up (fst s)) q i).
    { apply (l_same L); auto. exists q. split; auto. apply r_here. eapply rooted_fix; eauto. }
    assert (Fr : forall z, rt m z = true -> rooted (up (fst s)) z z).
    { intros z Hz. apply r_here. unfold up. rewrite Hrt. simpl. now rewrite Hz. }
    destruct (same_trans Sq (same_sym S)) as (w & W1 & W2).
    assert (Eq : rt m q = true).
    { pose proof (rooted_fix Rq) as X. destruct (rt m q) eqn:E; auto. unfold up in X. rewrite E in X.
      destruct (g_par G Hq E) as [_ Hk]. apply kl_neq in Hk. congruence. }
    rewrite (rooted_det W1 (Fr q Eq)) in W2. rewrite (rooted_det W2 (Fr r Hroot)) in Rq. exact Rq.
  Qed.
End Runs.
