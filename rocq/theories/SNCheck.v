(* Proofs about insert_check: a phase without abort is a phase of insert. *)
From Verif Require Import Base ListUtil HTModel HTSpec HTProofs HTFull HTProps SNModel.
Unset Strict Implicit.

Section Check.
  Variable V : Type.
  Variable hash : nat -> nat.
  Variable e0 : V.
  Variable limit : nat.
  Variable calls : list (nat * V).
  Notation csys := (csys_step hash e0 limit calls).
  Notation cexec := (cexec hash e0 limit calls).
  Notation sys := (sys_step e0 (fun _ v => v) None calls).
  Notation exec := (exec e0 (fun _ v => v) None calls).

  Definition calm (s : cst V) : Prop := cab s = false /\ forall i, nth_error (cpcs s) i <> Some CAbort.
  Definition pmap (first : nat) (p : cpc) : pc :=
    match p with
    | CEnter => Test first
    | CTest h _ => Test h
    | CCas h _ => Cas h
    | CCheck h _ => Check h
    | CUpd h => Upd h true
    | CAbort => Test 0
    | CDone r => Done r
    end.
  (* s is the state of an insert machine *)
  Record same (c : cst V) (s : st V) : Prop := {
    sm_tab : tab s = ctab c;
    sm_len : length (pcs s) = length calls /\ length (cpcs c) = length calls;
    sm_pc : forall i kv p, nth_error calls i = Some kv -> nth_error (cpcs c) i = Some p ->
      nth_error (pcs s) i = Some (pmap (firstIndex hash (ctab c) (fst kv)) p)
  }.

  Lemma firstIndex_len (t t' : table V) k : length t = length t' -> firstIndex hash t k = firstIndex hash t' k.
  Proof. unfold firstIndex. now intros ->. Qed.
  Lemma csys_len s i : length (cpcs (csys s i)) = length (cpcs s) /\ length (ctab (csys s i)) = length (ctab s).
  Proof.
    unfold csys_step. destruct (nth_error calls i) as [kv|]; auto. destruct (nth_error (cpcs s) i) as [p|]; auto.
    destruct p as [|h q|h q|h q|h| |r]; simpl; rewrite ?length_lset; auto.
    - destruct (tkey e0 (ctab s) h); simpl; rewrite ?length_lset; auto. unfold set_key. now rewrite length_lset.
    - destruct (tkey e0 (ctab s) h) as [k|]; [destruct (k =? fst kv)|]; simpl; rewrite ?length_lset; auto.
    - unfold set_val. now rewrite length_lset.
  Qed.
  Lemma calm_back s i : calm (csys s i) -> calm s.
  Proof.
    intros [Ha Hp]. unfold csys_step in *. destruct (nth_error calls i) as [kv|] eqn:Ei; [|now split].
    destruct (nth_error (cpcs s) i) as [p|] eqn:Ep; [|now split].
    assert (Hlt : i < length (cpcs s)) by (apply nth_error_Some; congruence).
    destruct (cstep hash e0 limit kv (ctab s) p (cab s)) as [[t p'] ab] eqn:Es. simpl in *. split.
    - destruct (cab s) eqn:E; auto. destruct p as [|h q|h q|h q|h| |r]; simpl in Es; try congruence.
      + destruct (tkey e0 (ctab s) h); congruence.
      + destruct (tkey e0 (ctab s) h) as [k|]; [destruct (k =? fst kv)|]; congruence.
    - intros j Hj. destruct (Nat.eq_dec j i) as [->|Hn].
      + rewrite Hj in Ep. injection Ep as <-. simpl in Es. congruence.
      + apply (Hp j). rewrite nth_error_lset_other; auto.
  Qed.

  Lemma same_step c s i : same c s -> calm (csys c i) -> exists l, same (csys c i) (exec l s).
  Proof.
    intros S Hc. pose proof (calm_back Hc) as Hc0. unfold csys_step in *.
    destruct (nth_error calls i) as [kv|] eqn:Ei; [|exists []; exact S].
    destruct (nth_error (cpcs c) i) as [p|] eqn:Ep; [|exists []; exact S].
    assert (Hlt : i < length (cpcs c)) by (apply nth_error_Some; congruence).
    assert (Hlt' : i < length (pcs s)) by (destruct (sm_len S); lia).
    pose proof (sm_pc S Ei Ep) as Hp. pose proof (sm_tab S) as Ht.
    destruct (cstep hash e0 limit kv (ctab c) p (cab c)) as [[t p'] ab] eqn:Es. destruct Hc as [Ha Hcp]. simpl in Ha.
    assert (Hno : p' <> CAbort).
    { intros ->. apply (Hcp i). simpl. rewrite nth_error_lset_same; auto. }
    assert (Hlen : length t = length (ctab c)).
    { pose proof (csys_len c i) as [_ X]. unfold csys_step in X. rewrite Ei, Ep, Es in X. exact X. }
    (* the two machines make the same step *)
    assert (Hgo : forall log, tstep e0 (fun _ v => v) None i kv (tab s) (pmap (firstIndex hash (ctab c) (fst kv)) p) (hlog s) =
        (t, pmap (firstIndex hash t (fst kv)) p', log) -> exists l, same {| ctab := t; cpcs := lset (cpcs c) i p'; cab := ab |} (exec l s)).
    { intros log E. exists [i]. simpl. unfold sys_step. rewrite Ei, Hp, E. constructor; simpl; auto.
      - rewrite !length_lset. apply (sm_len S).
      - intros j kv' q Ej Eq. destruct (Nat.eq_dec j i) as [->|Hn].
        + rewrite nth_error_lset_same in Eq by auto. injection Eq as <-. rewrite nth_error_lset_same by auto. congruence.
        + rewrite nth_error_lset_other in Eq by auto. rewrite nth_error_lset_other by auto. rewrite (firstIndex_len _ Hlen). exact (sm_pc S Ej Eq). }
    rewrite <- Ht in *. destruct p as [|h q|h q|h q|h| |r]; simpl in Es.
    - (* CEnter: the insert machine waits *)
      exists []. simpl. destruct (cab c) eqn:Eab; [destruct Hc0; congruence|]. injection Es as <- <- <-. constructor; simpl; auto.
      + rewrite length_lset. apply (sm_len S).
      + intros j kv' q Ej Eq. destruct (Nat.eq_dec j i) as [->|Hn].
        * rewrite nth_error_lset_same in Eq by auto. injection Eq as <-. rewrite Ej in Ei. injection Ei as ->. exact Hp.
        * rewrite nth_error_lset_other in Eq by auto. rewrite Ht. exact (sm_pc S Ej Eq).
    - injection Es as <- <- <-. eapply Hgo. simpl. destruct (tkey e0 (tab s) h); reflexivity.
    - eapply Hgo. simpl. destruct (tkey e0 (tab s) h); injection Es as <- <- <-; reflexivity.
    - eapply Hgo. simpl. destruct (tkey e0 (tab s) h) as [k|]; [destruct (k =? fst kv)|]; injection Es as <- <- <-; try reflexivity;
        destruct (limit <? q + 1); try (exfalso; now apply Hno); reflexivity.
    - eapply Hgo. simpl. injection Es as <- <- <-. reflexivity.
    - exfalso. destruct Hc0 as [_ X]. now apply (X i).
    - eapply Hgo. simpl. injection Es as <- <- <-. reflexivity.
  Qed.

  Lemma same_exec t sched : calm (cexec sched (cstart t calls)) ->
    exists l, same (cexec sched (cstart t calls)) (exec l (start hash t calls)).
  Proof.
    induction sched as [|i sched IH] using rev_ind; intros Hc.
    - exists []. constructor; simpl; auto.
      + now rewrite !map_length.
      + intros i kv p Ei Ep. rewrite nth_error_map in *. rewrite Ei in *. simpl in *. injection Ep as <-. reflexivity.
    - unfold SNModel.cexec in *. rewrite fold_left_app in *. simpl in *. destruct (IH (calm_back Hc)) as (l & S).
      destruct (same_step S Hc) as (l' & S'). exists (l ++ l'). unfold HTModel.exec in *. rewrite fold_left_app. exact S'.
  Qed.

  (* a phase without abort is a phase of insert *)
  Lemma check_is_insert t sched : let c := cexec sched (cstart t calls) in cfinished c -> cab c = false ->
    exists l, let s := exec l (start hash t calls) in finished s /\ tab s = ctab c /\
      forall i r, returned s i r <-> creturned c i r.
  Proof.
    intros c Hf Ha. assert (Hcalm : calm c).
    { split; auto. intros i E. destruct (Hf _ _ E) as [r X]. discriminate. }
    destruct (same_exec Hcalm) as (l & S). fold c in S. exists l. cbv zeta. set (s := exec l _) in *.
    assert (X : forall i r, returned s i r <-> creturned c i r).
    { intros i r. unfold returned, creturned. destruct (sm_len S) as [L1 L2]. split; intros H.
      - assert (Hi : i < length calls) by (rewrite <- L1; apply nth_error_Some; rewrite H; discriminate).
        destruct (nth_error calls i) as [kv|] eqn:Ei; [|apply nth_error_None in Ei; lia].
        destruct (nth_error (cpcs c) i) as [p|] eqn:Ep; [|apply nth_error_None in Ep; lia].
        destruct (Hf _ _ Ep) as [r' ->]. pose proof (sm_pc S Ei Ep) as Y. simpl in Y. congruence.
      - assert (Hi : i < length calls) by (rewrite <- L2; apply nth_error_Some; congruence).
        destruct (nth_error calls i) as [kv|] eqn:Ei; [|apply nth_error_None in Ei; lia]. exact (sm_pc S Ei H). }
    split; [|split; [apply (sm_tab S)|exact X]]. intros i p E. destruct (sm_len S) as [L1 L2].
    assert (Hi : i < length calls) by (rewrite <- L1; apply nth_error_Some; rewrite E; discriminate).
    destruct (nth_error calls i) as [kv|] eqn:Ei; [|apply nth_error_None in Ei; lia].
    destruct (nth_error (cpcs c) i) as [q|] eqn:Ep; [|apply nth_error_None in Ep; lia].
    destruct (Hf _ _ Ep) as [r ->]. pose proof (sm_pc S Ei Ep) as Y. simpl in Y. exists r. congruence.
  Qed.

  (* insert_check always returns *)
  Definition ccost (p : cpc) : nat :=
    match p with
    | CEnter => 3 * limit + 5
    | CTest _ q => 3 * (limit - q) + 4
    | CCas _ q => 3 * (limit - q) + 3
    | CCheck _ q => 3 * (limit - q) + 2
    | CUpd _ | CAbort => 1
    | CDone _ => 0
    end.
  Lemma ccost_step kv t p ab : ccost (snd (fst (cstep hash e0 limit kv t p ab))) <= ccost p - 1.
  Proof.
    destruct p as [|h q|h q|h q|h| |r]; simpl; try lia.
    - destruct ab; simpl; lia.
    - destruct (tkey e0 t h); simpl; lia.
    - destruct (tkey e0 t h); simpl; lia.
    - destruct (tkey e0 t h) as [k|]; [destruct (k =? fst kv)|]; simpl; try lia; destruct (Nat.ltb_spec limit (q + 1)); simpl; lia.
  Qed.
  Lemma ccost_exec sched : forall s i kv p, nth_error calls i = Some kv -> nth_error (cpcs s) i = Some p ->
    exists p', nth_error (cpcs (cexec sched s)) i = Some p' /\ ccost p' <= ccost p - steps sched i.
  Proof.
    induction sched as [|j sched IH]; intros s i kv p Ei Ep; simpl; [exists p; split; auto; simpl; lia|].
    unfold steps. simpl count_occ. destruct (Nat.eq_dec j i) as [->|Hn].
    - assert (Hlt : i < length (cpcs s)) by (apply nth_error_Some; congruence).
      pose proof (@ccost_step kv (ctab s) p (cab s)) as X.
      destruct (cstep hash e0 limit kv (ctab s) p (cab s)) as [[t p1] ab] eqn:Es. simpl in X.
      assert (E1 : nth_error (cpcs (csys s i)) i = Some p1).
      { unfold csys_step. rewrite Ei, Ep, Es. simpl. now rewrite nth_error_lset_same. }
      destruct (IH _ _ _ _ Ei E1) as (p' & E & Hc). exists p'. split; auto. unfold steps in Hc. lia.
    - assert (E1 : nth_error (cpcs (csys s j)) i = Some p).
      { unfold csys_step. destruct (nth_error calls j) as [kv'|]; auto. destruct (nth_error (cpcs s) j) as [q|] eqn:Eq; auto.
        destruct (cstep hash e0 limit kv' (ctab s) q (cab s)) as [[t p1] ab]. simpl.
        rewrite nth_error_lset_other; auto. }
      destruct (IH _ _ _ _ Ei E1) as (p' & E & Hc). exists p'. split; auto.
  Qed.
  Lemma check_ends t sched i : i < length calls -> 3 * limit + 5 <= steps sched i ->
    exists r, creturned (cexec sched (cstart t calls)) i r.
  Proof.
    intros Hi Hs. destruct (nth_error calls i) as [kv|] eqn:Ei; [|apply nth_error_None in Ei; lia].
    destruct (@ccost_exec sched (cstart t calls) i kv CEnter Ei) as (p' & E & Hc).
    { simpl. rewrite nth_error_map, Ei. reflexivity. }
    simpl ccost in Hc. assert (ccost p' = 0) by lia. destruct p'; simpl in *; try lia. exists r. exact E.
  Qed.
  Lemma cexec_len sched s : length (cpcs (cexec sched s)) = length (cpcs s).
  Proof. revert s. induction sched as [|i sched IH]; intros s; simpl; auto. unfold SNModel.cexec in *. simpl. rewrite IH. apply csys_len. Qed.
End Check.

(* a schedule that gives every one of k callers c steps *)
Definition fair (k c : nat) : list nat := flat_map (fun i => repeat i c) (seq 0 k).
Lemma count_occ_repeat i j c : count_occ Nat.eq_dec (repeat j c) i = if Nat.eq_dec j i then c else 0.
Proof. induction c as [|c IH]; simpl; [destruct (Nat.eq_dec j i); auto|]. rewrite IH. destruct (Nat.eq_dec j i); auto. Qed.
Lemma fair_steps k c i : i < k -> c <= steps (fair k c) i.
Proof.
  unfold fair, steps. intros H. assert (X : forall a, a <= i < a + k -> c <= count_occ Nat.eq_dec (flat_map (fun i => repeat i c) (seq a k)) i).
  { clear H. induction k as [|k IH]; intros a Ha; [lia|]. simpl. rewrite count_occ_app, count_occ_repeat.
    destruct (Nat.eq_dec a i) as [E|E]; [lia|]. specialize (IH (S a)). lia. }
  apply (X 0). lia.
Qed.
