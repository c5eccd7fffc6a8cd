(* C78: the Shiloach-Vishkin and Liu-Tarjan spanning forests. *)
From Coq Require Import Permutation.
From Verif Require Import Base ListUtil UFSpec FRSpec CTSpec SPProofs JATree UFProps JAProps SVModel LTModel RSModel.
From Verif Require SVProofs RSProofs RSLoops.
Unset Strict Implicit.

(* what the loops may start from: labels that point to roots, and recorded edges of the graph that
   form a forest whose trees are the label classes; a root has no recorded edge *)
Record start (n : nat) (outn : nat -> list nat) (P : nat -> nat) (Ed : nat -> option (nat * nat)) : Prop := {
  s_flat : forall x, x < n -> P x < n /\ P (P x) = P x;
  s_edges : incl (recorded n Ed) (pairs n outn);
  s_forest : forest (unweighted (recorded n Ed));
  s_trees : forall x y, x < n -> y < n -> (connected (recorded n Ed) x y <-> P x = P y);
  s_free : forall x, x < n -> P x = x -> Ed x = None }.

Lemma start_finv n outn P Ed : undirected n outn -> start n outn P Ed -> RSProofs.flat n P /\ RSProofs.finv n (pairs n outn) Ed P.
Proof.
  intros HU [A B C D F]. split; [exact A|]. split; auto.
  - now apply forest_unweighted.
  - intros x y H. apply B in H. destruct (RSLoops.pairs_ok HU H) as (H1 & H2 & _). auto.
  - intros x y Hx Hy. rewrite (@RSProofs.same_flat n P x y A Hx Hy). now apply D.
Qed.
Lemma finish n outn (R : nat -> nat) Ed : undirected n outn -> RSProofs.flat n R -> RSProofs.finv n (pairs n outn) Ed R ->
  (forall u v, In (u, v) (pairs n outn) -> R u = R v) ->
  spanning_forest (unweighted (pairs n outn)) (unweighted (recorded n Ed)) /\
  forall x y, x < n -> y < n -> (R x = R y <-> connected (pairs n outn) x y).
Proof.
  intros HU HF F HJ. pose proof (RSLoops.labels_join HU HJ) as J. split.
  - apply (@spanning_of n).
    + intros u v H. destruct (RSLoops.pairs_ok HU H) as (A & B & _). auto.
    + intros [x y] H. now apply (RSProofs.f_in F).
    + apply (RSProofs.f_forest F).
    + intros x y Hx Hy C. apply (RSProofs.f_conn F); auto. apply (@RSProofs.same_flat n); auto.
  - intros x y Hx Hy. split; auto. intros H. apply (@JAForest.conn_mono (recorded n Ed)).
    + intros [u v] Huv. now apply (RSProofs.f_in F).
    + apply (RSProofs.f_conn F); auto. apply (@RSProofs.same_flat n); auto.
Qed.

(* without sampling: every vertex its own label, nothing recorded *)
Theorem C78_start_unsampled : forall n outn, undirected n outn -> start n outn (fun i => i) (fun _ => None).
Proof.
  intros n outn HU. assert (E : recorded n (fun _ => None) = []) by (unfold recorded; generalize (seq 0 n); intros l; induction l; auto).
  split; rewrite ?E; auto.
  - easy.
  - intros l1 e l2 H. destruct l1; discriminate.
  - intros x y Hx Hy. split; [|intros ->; apply rst_refl]. intros C. clear Hx Hy.
    induction C as [a b X|a|a b _ IH|a b c _ IH1 _ IH2]; [easy|auto|auto|congruence].
Qed.
Print Assumptions C78_start_unsampled.

Theorem C78_shiloach_vishkin : forall n outn freq P0 Ed0 k par prev Ed,
  undirected n outn -> start n outn P0 Ed0 ->
  svf_loop n outn freq P0 Ed0 k par prev Ed false ->
  spanning_forest (unweighted (pairs n outn)) (unweighted (recorded n Ed)) /\
  forall x y, x < n -> y < n -> (par x = par y <-> connected (pairs n outn) x y).
Proof.
  intros n outn freq P0 Ed0 k par prev Ed HU HS H. destruct (start_finv HU HS) as [S1 S2].
  destruct (RSLoops.svf_final HU S1 S2 H) as (Hk & F & HF & Heq & HJ). destruct (finish HU HF F HJ) as [A B].
  split; auto. intros x y Hx Hy. rewrite !Heq by auto. auto.
Qed.
Print Assumptions C78_shiloach_vishkin.

Theorem C78_liu_tarjan : forall largest n outn c freq P0 Ed0 k P msgs Ed,
  undirected n outn -> n <= largest -> start n outn P0 Ed0 ->
  ltf_loop largest n outn c true freq P0 Ed0 k P msgs Ed false ->
  spanning_forest (unweighted (pairs n outn)) (unweighted (recorded n Ed)) /\
  forall x y, x < n -> y < n -> (P x = P y <-> connected (pairs n outn) x y).
Proof.
  intros largest n outn c freq P0 Ed0 k P msgs Ed HU Hl HS H. destruct (start_finv HU HS) as [S1 S2].
  destruct (RSLoops.ltf_loop_ok HU Hl S1 S2 H) as (HF & F & _ & _ & _ & HJ). apply finish; auto.
Qed.
Print Assumptions C78_liu_tarjan.

(* at most n + 1 rounds, and every round can be completed *)
Theorem C78_rounds : forall n outn freq P0 Ed0, undirected n outn -> start n outn P0 Ed0 ->
  (forall k par prev Ed ch, svf_loop n outn freq P0 Ed0 k par prev Ed ch -> k <= S n /\
     (ch = true -> exists par' prev' Ed' ch', svf_loop n outn freq P0 Ed0 (S k) par' prev' Ed' ch')) /\
  (forall largest c k P msgs Ed ch, n <= largest -> ltf_loop largest n outn c true freq P0 Ed0 k P msgs Ed ch -> k <= S n /\
     (ch = true -> exists P' msgs' Ed' ch', ltf_loop largest n outn c true freq P0 Ed0 (S k) P' msgs' Ed' ch')).
Proof.
  intros n outn freq P0 Ed0 HU HS. destruct (start_finv HU HS) as [S1 S2]. split.
  - intros k par prev Ed ch H. split; [eapply RSLoops.svf_bound; eauto|]. intros ->. eapply RSLoops.svf_progress; eauto.
  - intros largest c k P msgs Ed ch Hl H. destruct (RSLoops.ltf_loop_ok HU Hl S1 S2 H) as (_ & _ & _ & Hk & _).
    split; auto. intros ->. eapply RSLoops.ltf_progress; eauto.
Qed.
Print Assumptions C78_rounds.

(* -- runs ---------------------------------------------------------------------------------------- *)
Definition finb (s : jstate) : bool := forallb (fun x => match snd x with JDone _ => true | _ => false end) (jthr s).
Lemma finb_ok s : finb s = true -> jfinished s.
Proof.
  unfold finb, jfinished. rewrite forallb_forall. intros H u pc Hin. specialize (H _ Hin). simpl in H. destruct pc; try discriminate. eauto.
Qed.
(* the rounds of Liu-Tarjan with the edges in order and the given schedules of the shortcut loops *)
Definition ltstate : Type := (nat -> nat) * (nat -> message) * (nat -> option (nat * nat)) * bool.
Fixpoint lt_runs (largest n : nat) (outn : nat -> list nat) (c : sf_connect) (full : bool) (scheds : list (list nat)) (st : ltstate) : option ltstate :=
  match scheds with
  | [] => Some st
  | sched :: scheds =>
      let '(P, msgs, Ed, ch) := st in
      if ch then
        let w := fold_left (sf_write largest) (flat_map (sf_calls largest c P) (sv_edges n outn P None)) (msgs, false) in
        let s := jexec largest sched (jstart (B1 full) (sf_update largest n P (fst w)) (seq 0 n)) in
        if finb s then lt_runs largest n outn c full scheds (jpar s, fst w, sf_update_edge largest n P (fst w) Ed, snd w) else None
      else None
  end.
Lemma lt_runs_ok largest n outn c full P0 Ed0 scheds : forall k P msgs Ed ch P' msgs' Ed' ch', ltf_loop largest n outn c full None P0 Ed0 k P msgs Ed ch ->
  lt_runs largest n outn c full scheds (P, msgs, Ed, ch) = Some (P', msgs', Ed', ch') ->
  ltf_loop largest n outn c full None P0 Ed0 (k + length scheds) P' msgs' Ed' ch'.
Proof.
  induction scheds as [|sched scheds IH]; intros k P msgs Ed ch P' msgs' Ed' ch' H E; cbn [lt_runs] in E.
  - injection E as <- <- <- <-. simpl. now rewrite Nat.add_0_r.
  - destruct ch; [|discriminate]. set (w := fold_left _ _ _) in E. destruct (finb _) eqn:F; [|discriminate].
    cbn [length]. rewrite Nat.add_succ_r. rewrite <- Nat.add_succ_l. eapply IH; [|exact E].
    eapply ltf_next; [exact H|]. apply ltf_round_intro with (calls := flat_map (sf_calls largest c P) (sv_edges n outn P None)).
    + apply Permutation_refl.
    + fold w. destruct w; reflexivity.
    + now apply finb_ok.
Qed.
Definition init0 : ltstate := (fun i => i, fun i => (i, None), fun _ => None, true).
Definition adj (l : list (list nat)) (u : nat) : list nat := nth u l [].
Definition undirected_b (n : nat) (outn : nat -> list nat) : bool :=
  forallb (fun u => forallb (fun v => (v <? n) && existsb (Nat.eqb u) (outn v)) (outn u)) (seq 0 n).
Lemma undirected_b_ok n outn : undirected_b n outn = true -> undirected n outn.
Proof.
  unfold undirected_b. rewrite forallb_forall. intros H u v Hu Hv. specialize (H u). rewrite forallb_forall in H.
  specialize (H ltac:(apply in_seq; lia) v Hv). apply andb_true_iff in H as [A B]. apply Nat.ltb_lt in A. split; auto.
  apply existsb_exists in B as (w & B1 & B2). apply Nat.eqb_eq in B2. now subst w.
Qed.
(* the tasks one after another *)
Definition one_by_one (l : list nat) : list nat := concat (map (fun t => repeat t 30) l).

(* a single shortcut per round: the loop may stop while some edge still joins two trees *)
Definition path6 : nat -> list nat := adj [[2]; [4]; [0; 3]; [2; 5]; [5; 1]; [3; 4]].
Definition order6 : list nat := one_by_one [0; 1; 2; 5; 3; 4].
Definition graph9 : nat -> list nat := adj [[7]; [8]; [3; 7]; [2; 4]; [3; 5]; [4; 6; 7]; [5; 8]; [5; 2; 0]; [6; 1]].
Definition order9 : list nat := one_by_one [8; 7; 6; 5; 4; 3; 2; 1; 0].
Lemma crossing (G L : list (nat * nat)) (side : nat -> bool) x y : In (x, y) G -> side x <> side y ->
  forallb (fun e => Bool.eqb (side (fst e)) (side (snd e))) L = true ->
  ~ (forall x y, connected G x y -> connected L x y).
Proof.
  intros Hin Hne HL H. assert (C : connected L x y) by (apply H, rst_step; auto). apply Hne. rewrite forallb_forall in HL. clear -C HL.
  induction C as [a b X|a|a b _ IH|a b c _ IH1 _ IH2]; try congruence. specialize (HL _ X). now apply Bool.eqb_prop in HL.
Qed.
Definition outcome (o : option ltstate) (n : nat) : bool * list (nat * nat) :=
  match o with Some (_, _, Ed, ch) => (ch, recorded n Ed) | None => (true, []) end.
Lemma lt_runs_end largest n outn c full scheds L : outcome (lt_runs largest n outn c full scheds init0) n = (false, L) ->
  exists k P msgs Ed, ltf_loop largest n outn c full None (fun i => i) (fun _ => None) k P msgs Ed false /\ recorded n Ed = L.
Proof.
  intros H. destruct (lt_runs largest n outn c full scheds init0) as [[[[P msgs] Ed] ch]|] eqn:E; [|discriminate].
  simpl in H. injection H as -> HL. exists (0 + length scheds), P, msgs, Ed. split; auto. eapply lt_runs_ok; [apply ltf_start|exact E].
Qed.
Theorem C78_shortcut_refuted :
  (undirected 6 path6 /\ exists k P msgs Ed, ltf_loop 6 6 path6 SFParent false None (fun i => i) (fun _ => None) k P msgs Ed false /\
     ~ (forall x y, connected (pairs 6 path6) x y -> connected (recorded 6 Ed) x y)) /\
  (undirected 9 graph9 /\ exists k P msgs Ed, ltf_loop 9 9 graph9 SFExtended false None (fun i => i) (fun _ => None) k P msgs Ed false /\
     ~ (forall x y, connected (pairs 9 graph9) x y -> connected (recorded 9 Ed) x y)).
Proof.
  split; (split; [apply undirected_b_ok; vm_compute; reflexivity|]).
  - destruct (@lt_runs_end 6 6 path6 SFParent false (repeat order6 2) [(0, 2); (2, 3); (1, 4); (3, 5)]) as (k & P & msgs & Ed & H & HL); [vm_compute; reflexivity|].
    exists k, P, msgs, Ed. split; auto. rewrite HL. apply (@crossing _ _ (fun v => (v =? 1) || (v =? 4)) 5 4); [|discriminate|vm_compute; reflexivity].
    apply RSLoops.in_pairs. split; [lia|]. vm_compute. auto.
  - destruct (@lt_runs_end 9 9 graph9 SFExtended false (repeat order9 3) [(2, 7); (2, 3); (3, 4); (4, 5); (5, 6); (0, 7); (1, 8)]) as (k & P & msgs & Ed & H & HL); [vm_compute; reflexivity|].
    exists k, P, msgs, Ed. split; auto. rewrite HL. apply (@crossing _ _ (fun v => (v =? 1) || (v =? 8)) 6 8); [|discriminate|vm_compute; reflexivity].
    apply RSLoops.in_pairs. split; [lia|]. vm_compute. auto.
Qed.
Print Assumptions C78_shortcut_refuted.

(* -- the hypotheses are met ---------------------------------------------------------------------- *)
(* the full shortcut ends with all five edges of the path *)
Example C78_example_liu_tarjan : forall c, exists k P msgs Ed,
  ltf_loop 6 6 path6 c true None (fun i => i) (fun _ => None) k P msgs Ed false /\ length (recorded 6 Ed) = 5.
Proof.
  intros c. destruct (@lt_runs_end 6 6 path6 c true (repeat order6 3) [(4, 5); (0, 2); (2, 3); (1, 4); (3, 5)]) as (k & P & msgs & Ed & H & HL); [destruct c; vm_compute; reflexivity|].
  exists k, P, msgs, Ed. split; auto. now rewrite HL.
Qed.
(* Shiloach-Vishkin on the path, the sampled edge (0, 2) given: hooking, recording in the reverse
   order, compressing; the vertices labelled 0 are skipped *)
Definition sampledP (v : nat) : nat := if v =? 2 then 0 else v.
Definition sampledE (v : nat) : option (nat * nat) := if v =? 2 then Some (0, 2) else None.
Example C78_example_start : undirected 6 path6 /\ start 6 path6 sampledP sampledE.
Proof.
  split; [apply undirected_b_ok; vm_compute; reflexivity|]. unfold sampledP, sampledE. split.
  - intros x Hx. destruct (Nat.eqb_spec x 2) as [->|Hx2]; [simpl; lia|]. split; auto. now destruct (Nat.eqb_spec x 2).
  - intros e [<-|[]]. apply RSLoops.in_pairs. split; [lia|]. vm_compute. auto.
  - intros l1 e l2 H. destruct l1 as [|a l1]; [|destruct l1; discriminate]. injection H as <- <-. intros C. simpl in C.
    assert (X : forall a b, connected [] a b -> a = b) by (clear; intros a b C; induction C as [a b X|a|a b _ IH|a b c _ IH1 _ IH2]; [easy|auto|auto|congruence]).
    apply X in C. discriminate.
  - intros x y Hx Hy. change (recorded 6 _) with [(0, 2)]. split.
    + intros C. clear Hx Hy. induction C as [a b [X|[]]|a|a b _ IH|a b c _ IH1 _ IH2]; auto; [|congruence]. injection X as <- <-. reflexivity.
    + assert (S : connected [(0, 2)] 0 2) by (apply rst_step; now left).
      destruct (Nat.eqb_spec x 2) as [->|Hx2], (Nat.eqb_spec y 2) as [->|Hy2]; intros He; subst; try apply rst_refl; auto. now apply rst_sym.
  - intros x Hx. destruct (Nat.eqb_spec x 2); [subst; discriminate|auto].
Qed.
Fixpoint sv_runs (n : nat) (outn : nat -> list nat) (freq : option nat) (par0 : nat -> nat) (scheds : list (list nat))
  (st : (nat -> nat) * (nat -> nat) * (nat -> option (nat * nat)) * bool) :=
  match scheds with
  | [] => Some st
  | sched :: scheds =>
      let '(par, prev, Ed, ch) := st in
      if ch then
        let E := sv_edges n outn par0 freq in
        let calls := flat_map (hook_call prev) E in
        let par1 := min_writes calls par in
        let s := jexec 0 sched (jstart A1 par1 (seq 0 n)) in
        if finb s then sv_runs n outn freq par0 scheds (jpar s, store_prev s prev, fold_left (sv_record prev par1) (rev E) Ed, match calls with [] => false | _ => true end) else None
      else None
  end.
Lemma sv_runs_ok n outn freq par0 Ed0 scheds : forall k par prev Ed ch par' prev' Ed' ch', svf_loop n outn freq par0 Ed0 k par prev Ed ch ->
  sv_runs n outn freq par0 scheds (par, prev, Ed, ch) = Some (par', prev', Ed', ch') -> svf_loop n outn freq par0 Ed0 (k + length scheds) par' prev' Ed' ch'.
Proof.
  induction scheds as [|sched scheds IH]; intros k par prev Ed ch par' prev' Ed' ch' H E; cbn [sv_runs] in E.
  - injection E as <- <- <- <-. simpl. now rewrite Nat.add_0_r.
  - destruct ch; [|discriminate]. destruct (finb _) eqn:F; [|discriminate].
    cbn [length]. rewrite Nat.add_succ_r. rewrite <- Nat.add_succ_l. eapply IH; [|exact E].
    eapply svf_next; [exact H|]. apply svf_round_intro; [apply Permutation_refl|apply Permutation_sym, Permutation_rev|now apply finb_ok].
Qed.
Example C78_example_shiloach_vishkin : exists k par prev Ed, svf_loop 6 path6 (Some 0) sampledP sampledE k par prev Ed false /\
  recorded 6 Ed = [(5, 4); (0, 2); (3, 2); (4, 1); (5, 3)].
Proof.
  destruct (sv_runs 6 path6 (Some 0) sampledP (repeat (concat (repeat (rev (seq 0 6)) 40)) 3) (sampledP, sampledP, sampledE, true)) as [[[[par prev] Ed] ch]|] eqn:E; [|vm_compute in E; discriminate].
  assert (X : match sv_runs 6 path6 (Some 0) sampledP (repeat (concat (repeat (rev (seq 0 6)) 40)) 3) (sampledP, sampledP, sampledE, true) with
    Some (_, _, Ed, ch) => (ch, recorded 6 Ed) | None => (true, []) end = (false, [(5, 4); (0, 2); (3, 2); (4, 1); (5, 3)])) by (vm_compute; reflexivity).
  rewrite E in X. injection X as -> X. exists (0 + 3), par, prev, Ed. split; auto. eapply (@sv_runs_ok _ _ _ _ _ (repeat _ 3)); [apply svf_start|exact E].
Qed.
