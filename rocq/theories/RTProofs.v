(* Proofs for C94. *)
From Coq Require Import Permutation.
From Verif Require Import Base ListUtil RTModel RTSpec.
Unset Strict Implicit.

Lemma cell_lt (t : table) h x : cell t h = Some x -> h < length t.
Proof. unfold cell. intros H. destruct (Nat.lt_ge_cases h (length t)); auto. rewrite nth_overflow in H by auto. discriminate. Qed.
Lemma entries_In (t : table) x : In x (entries t) <-> exists h, cell t h = Some x.
Proof.
  unfold entries, cell. induction t as [|c t IH]; cbn [flat_map].
  - split; [intros []|]. intros (h & H). destruct h; discriminate.
  - rewrite in_app_iff, IH. split.
    + intros [H|(h & H)]; [exists 0; destruct c as [y|]; [destruct H as [<-|[]]; reflexivity|destruct H]|exists (S h); exact H].
    + intros ([|h] & H); cbn [nth] in H; [left; subst c; now left|right; eauto].
Qed.
Lemma entries_NoDup (t : table) : (forall h1 h2 x, cell t h1 = Some x -> cell t h2 = Some x -> h1 = h2) -> NoDup (entries t).
Proof.
  induction t as [|c t IH]; intros H; [constructor|]. assert (N : NoDup (entries t)) by (apply IH; intros h1 h2 x A B; enough (S h1 = S h2) by lia; eapply H; eauto).
  unfold entries in *. cbn [flat_map]. destruct c as [y|]; auto. cbn [app]. constructor; auto. intros X. apply (proj1 (entries_In t y)) in X as (h & X).
  assert (0 = S h) by (eapply H; [reflexivity|exact X]). discriminate.
Qed.
Lemma entries_lset (t : table) h x : h < length t -> cell t h = None -> Permutation (entries (lset t h (Some x))) (x :: entries t).
Proof.
  unfold cell, entries. revert h. induction t as [|c t IH]; intros [|h] Hl Hc; cbn [length] in Hl; try lia; cbn [nth] in Hc; cbn [lset flat_map].
  - subst c. reflexivity.
  - rewrite IH by (auto; lia). symmetry. apply Permutation_middle.
Qed.
Lemma has_empty (t : table) : length (entries t) < length t -> exists h, h < length t /\ cell t h = None.
Proof.
  unfold cell, entries. induction t as [|[y|] t IH]; cbn [length flat_map app]; intros H; try lia.
  - destruct IH as (h & A & B); [lia|]. exists (S h). split; [lia|exact B].
  - exists 0. split; [lia|reflexivity].
Qed.
Lemma entries_empty k : entries (repeat None k) = [].
Proof. induction k; auto. Qed.
Lemma cell_lset (t : table) h c j : h < length t -> cell (lset t h c) j = if j =? h then c else cell t j.
Proof. intros H. unfold cell. destruct (Nat.eqb_spec j h) as [->|N]; [now apply nth_lset_same|apply nth_lset_other; auto]. Qed.
Lemma filter_lset {A} (f : A -> bool) l i p q : nth_error l i = Some p -> length (filter f (lset l i q)) + (if f p then 1 else 0) = length (filter f l) + (if f q then 1 else 0).
Proof.
  revert i. induction l as [|a l IH]; intros [|i] H; try discriminate; cbn [nth_error] in H; cbn [lset filter].
  - injection H as <-. destruct (f a), (f q); cbn [length]; lia.
  - specialize (IH i H). destruct (f a); cbn [length]; lia.
Qed.

Section Table.
  Variable hash : nat -> nat.
  Variable m : nat.
  Hypothesis Hm : 0 < m.
  Definition at_ (k d : nat) : nat := (hash k + d) mod m.
  Lemma at_lt k d : at_ k d < m. Proof. apply Nat.mod_upper_bound. lia. Qed.
  Definition dist (k h : nat) : nat := (h + m - hash k mod m) mod m.
  Lemma dist_at k d : d < m -> dist k (at_ k d) = d.
  Proof.
    intros Hd. unfold dist, at_. pose proof (Nat.mod_upper_bound (hash k) m ltac:(lia)) as Hr. set (r := hash k mod m) in *.
    rewrite <- Nat.add_mod_idemp_l by lia. fold r. destruct (Nat.lt_ge_cases (r + d) m) as [C|C].
    - rewrite (Nat.mod_small (r + d)) by auto. replace (r + d + m - r) with (d + 1 * m) by lia. rewrite Nat.mod_add by lia. now apply Nat.mod_small.
    - replace (r + d) with ((r + d - m) + 1 * m) by lia. rewrite Nat.mod_add by lia. rewrite (Nat.mod_small (r + d - m)) by lia.
      replace (r + d - m + m - r) with d by lia. now apply Nat.mod_small.
  Qed.
  Lemma at_inj k d1 d2 : d1 < m -> d2 < m -> at_ k d1 = at_ k d2 -> d1 = d2.
  Proof. intros H1 H2 E. rewrite <- (dist_at k H1), <- (dist_at k H2), E. reflexivity. Qed.
  Lemma at_surj k h : h < m -> exists d, d < m /\ h = at_ k d.
  Proof.
    intros Hh. exists (dist k h). split; [apply Nat.mod_upper_bound; lia|]. unfold dist, at_. rewrite Nat.add_mod_idemp_r by lia.
    rewrite <- Nat.add_mod_idemp_l by lia. pose proof (Nat.mod_upper_bound (hash k) m ltac:(lia)). replace (hash k mod m + (h + m - hash k mod m)) with (h + 1 * m) by lia.
    rewrite Nat.mod_add by lia. now rewrite Nat.mod_small.
  Qed.
  Lemma at_first (t : table) k : length t = m -> firstIndex hash t k = at_ k 0.
  Proof. intros H. unfold firstIndex, at_. now rewrite H, Nat.add_0_r. Qed.
  Lemma at_next (t : table) k d : length t = m -> nextIndex t (at_ k d) = at_ k (S d).
  Proof. intros H. unfold nextIndex, at_. rewrite H, Nat.add_mod_idemp_l by lia. f_equal. lia. Qed.

  Definition path (t : table) (kv : nat * nat) (d : nat) : Prop := forall j, j < d -> exists x, cell t (at_ (fst kv) j) = Some x /\ x <> kv.
  Definition wf (t : table) : Prop := length t = m /\ forall h kv, cell t h = Some kv -> exists d, d < m /\ h = at_ (fst kv) d /\ path t kv d.
  Lemma wf_uniq t h1 h2 x : wf t -> cell t h1 = Some x -> cell t h2 = Some x -> h1 = h2.
  Proof.
    intros [_ W] A B. destruct (W _ _ A) as (d1 & D1 & -> & P1). destruct (W _ _ B) as (d2 & D2 & -> & P2). destruct (Nat.lt_trichotomy d1 d2) as [C|[->|C]]; auto; exfalso.
    - destruct (P2 _ C) as (y & Y1 & Y2). congruence.
    - destruct (P1 _ C) as (y & Y1 & Y2). congruence.
  Qed.
  Lemma wf_NoDup t : wf t -> NoDup (entries t).
  Proof. intros W. apply entries_NoDup. intros h1 h2 x. now apply wf_uniq. Qed.
  Lemma wf_new : wf (repeat None m).
  Proof. split; [apply repeat_length|]. intros h kv H. unfold cell in H. rewrite nth_repeat in H. discriminate. Qed.
  Lemma path_mono t t' kv d : (forall h x, cell t h = Some x -> cell t' h = Some x) -> path t kv d -> path t' kv d.
  Proof. intros H P j Hj. destruct (P j Hj) as (x & A & B). eauto. Qed.
  Lemma put_mono t h kv : h < length t -> cell t h = None -> forall j x, cell t j = Some x -> cell (lset t h (Some kv)) j = Some x.
  Proof. intros Hl Hc j x H. rewrite cell_lset by auto. destruct (Nat.eqb_spec j h) as [->|]; congruence. Qed.
  Lemma wf_put t kv d : wf t -> d < m -> path t kv d -> cell t (at_ (fst kv) d) = None -> wf (lset t (at_ (fst kv) d) (Some kv)).
  Proof.
    intros [L W] Hd P Hc. assert (Hl : at_ (fst kv) d < length t) by (rewrite L; apply at_lt). split; [now rewrite length_lset|].
    intros h x H. rewrite cell_lset in H by auto. destruct (Nat.eqb_spec h (at_ (fst kv) d)) as [->|N].
    - injection H as <-. exists d. split; auto. split; auto. apply (path_mono (put_mono kv Hl Hc) P).
    - destruct (W _ _ H) as (d' & D1 & D2 & D3). exists d'. split; auto. split; auto. apply (path_mono (put_mono kv Hl Hc) D3).
  Qed.
  Lemma path_short t kv d : length t = m -> length (entries t) < m -> path t kv d -> d <= m -> d < m.
  Proof.
    intros L He P Hd. destruct (Nat.eq_dec d m) as [->|]; [|lia]. exfalso. destruct (has_empty (t := t)) as (h & H1 & H2); [lia|]. rewrite L in H1.
    destruct (at_surj (fst kv) H1) as (d' & D1 & ->). destruct (P d' D1) as (x & X & _). congruence.
  Qed.

  (* concurrent insertions *)
  Section Calls.
    Variable t0 : table.
    Variable calls : list (nat * nat).
    Hypothesis Hw0 : wf t0.
    Hypothesis Hroom : length (entries t0) + length calls < m.
    Definition thread_ok (t : table) (kv : nat * nat) (p : pc) : Prop :=
      match p with
      | Test h | Cas h => exists d, d < m /\ h = at_ (fst kv) d /\ path t kv d
      | Check h => (exists d, d < m /\ h = at_ (fst kv) d /\ path t kv d) /\ cell t h <> None
      | Fin _ => exists h, cell t h = Some kv
      end.
    Record Inv (s : st) : Prop := {
      i_wf : wf (tab s);
      i_len : length (pcs s) = length calls;
      i_thr : forall i kv p, nth_error calls i = Some kv -> nth_error (pcs s) i = Some p -> thread_ok (tab s) kv p;
      i_old : incl (entries t0) (entries (tab s));
      i_new : incl (entries (tab s)) (entries t0 ++ calls);
      i_cnt : length (entries (tab s)) = length (entries t0) + added s }.
    Lemma thread_mono t t' kv p : (forall h x, cell t h = Some x -> cell t' h = Some x) -> thread_ok t kv p -> thread_ok t' kv p.
    Proof.
      intros H. destruct p as [h|h|h|r]; cbn [thread_ok].
      - intros (d & A & B & C). exists d. eauto using path_mono.
      - intros (d & A & B & C). exists d. eauto using path_mono.
      - intros ((d & A & B & C) & N). split; [exists d; eauto using path_mono|]. destruct (cell t h) as [x|] eqn:E; [|congruence]. rewrite (H _ _ E). discriminate.
      - intros (h & A). eauto.
    Qed.
    Lemma Inv_room s : Inv s -> length (entries (tab s)) < m.
    Proof. intros I. pose proof (NoDup_incl_length (wf_NoDup (i_wf I)) (i_new I)) as H. rewrite app_length in H. lia. Qed.
    Lemma Inv_start : Inv (start hash t0 calls).
    Proof.
      split; cbn [start tab pcs]; auto.
      - now rewrite map_length.
      - intros i kv p Hc Hp. rewrite nth_error_map, Hc in Hp. cbn in Hp. injection Hp as <-. cbn [thread_ok]. exists 0. split; auto. split; [apply at_first, Hw0|]. intros j Hj. lia.
      - intros x Hx. exact Hx.
      - intros x Hx. apply in_or_app. now left.
      - unfold added, start. cbn [pcs tab]. assert (E : forall l : list (nat * nat), filter (fun p => match p with Fin true => true | _ => false end) (map (fun kv => Test (firstIndex hash t0 (fst kv))) l) = []) by (induction l; auto).
        rewrite E. cbn. lia.
    Qed.
    Definition cost (kv : nat * nat) (p : pc) : nat :=
      match p with
      | Test h => 3 * (m - dist (fst kv) h)
      | Cas h => 3 * (m - dist (fst kv) h) - 1
      | Check h => 3 * (m - dist (fst kv) h) - 2
      | Fin _ => 0
      end.
    Definition isnew (p : pc) : bool := match p with Fin true => true | _ => false end.
    (* one step of a thread *)
    Lemma tstep_ok t kv p t' p' : wf t -> length (entries t) < m -> thread_ok t kv p -> tstep kv t p = (t', p') ->
      wf t' /\ thread_ok t' kv p' /\ (forall h x, cell t h = Some x -> cell t' h = Some x) /\ cost kv p' <= cost kv p - 1 /\
      ((t' = t /\ isnew p' = isnew p) \/ (Permutation (entries t') (kv :: entries t) /\ isnew p = false /\ isnew p' = true)).
    Proof.
      intros W He T E. pose proof W as [L _]. destruct p as [h|h|h|r]; cbn [tstep thread_ok] in *.
      - destruct T as (d & D1 & -> & P). injection E as <- <-. split; auto. destruct (cell t (at_ (fst kv) d)) as [x|] eqn:C; cbn [thread_ok cost isnew]; rewrite dist_at by auto.
        + split; [split; [eauto|congruence]|]. split; [auto|]. split; [lia|]. left; auto.
        + split; [eauto|]. split; [auto|]. split; [lia|]. left; auto.
      - destruct T as (d & D1 & -> & P). destruct (cell t (at_ (fst kv) d)) as [x|] eqn:C; injection E as <- <-; cbn [thread_ok cost isnew]; rewrite ?dist_at by auto.
        + split; auto. split; [split; [eauto|congruence]|]. split; [auto|]. split; [lia|]. left; auto.
        + assert (Hl : at_ (fst kv) d < length t) by (rewrite L; apply at_lt). split; [now apply wf_put|]. split; [exists (at_ (fst kv) d); rewrite cell_lset by auto; now rewrite Nat.eqb_refl|].
          split; [now apply put_mono|]. split; [lia|]. right. split; auto. now apply entries_lset.
      - destruct T as ((d & D1 & -> & P) & N). destruct (cell t (at_ (fst kv) d)) as [[k v]|] eqn:C; [|congruence]. injection E as <- <-. split; auto.
        destruct ((k =? fst kv) && (v =? snd kv)) eqn:B; cbn [thread_ok cost isnew].
        + apply andb_true_iff in B as [B1 B2]. apply Nat.eqb_eq in B1, B2. destruct kv as [k0 v0]. cbn [fst snd] in *. subst k v. split; [eauto|]. split; [auto|]. split; [lia|]. left; auto.
        + assert (Hne : (k, v) <> kv). { intros <-. cbn [fst snd] in B. now rewrite !Nat.eqb_refl in B. }
          assert (P' : path t kv (S d)). { intros j Hj. destruct (Nat.eq_dec j d) as [->|]; [eauto|apply P; lia]. }
          assert (D' : S d < m) by (apply (path_short L He P'); lia). rewrite at_next by auto. split; [eauto|]. split; [auto|]. split; [rewrite !dist_at by auto; lia|]. left; auto.
      - injection E as <- <-. split; [auto|]. split; [auto|]. split; [auto|]. split; [cbn; lia|]. left; auto.
    Qed.
    Lemma Inv_step s i : Inv s -> Inv (sys_step calls s i) /\ (forall j, j <> i -> nth_error (pcs (sys_step calls s i)) j = nth_error (pcs s) j) /\
      (forall kv p, nth_error calls i = Some kv -> nth_error (pcs s) i = Some p -> exists p', nth_error (pcs (sys_step calls s i)) i = Some p' /\ cost kv p' <= cost kv p - 1).
    Proof.
      intros I. unfold sys_step. destruct (nth_error calls i) as [kv|] eqn:Ec; [|split; auto; split; [auto|discriminate]].
      destruct (nth_error (pcs s) i) as [p|] eqn:Ep; [|split; auto; split; [auto|discriminate]].
      destruct (tstep kv (tab s) p) as [t' p'] eqn:E. destruct (tstep_ok (i_wf I) (Inv_room I) (i_thr I Ec Ep) E) as (W & T & Mo & Co & Ch).
      assert (Hi : i < length (pcs s)) by (apply nth_error_Some; congruence). cbn [pcs]. split; [|split].
      - split; cbn [tab pcs]; auto.
        + rewrite length_lset. apply (i_len I).
        + intros j kv' q Hc Hq. destruct (Nat.eq_dec j i) as [->|N].
          * rewrite nth_error_lset_same in Hq by auto. assert (kv' = kv) by congruence. assert (q = p') by congruence. subst. exact T.
          * rewrite nth_error_lset_other in Hq by auto. eapply thread_mono; [exact Mo|]. eapply (i_thr I); eauto.
        + intros x Hx. apply (i_old I) in Hx. apply entries_In in Hx as (h & Hx). apply entries_In. eauto.
        + destruct Ch as [[-> _]|[Pm _]]; [apply (i_new I)|]. intros x Hx. apply (Permutation_in _ Pm) in Hx. destruct Hx as [<-|Hx]; [|now apply (i_new I)].
          apply in_or_app. right. eapply nth_error_In; eauto.
        + unfold added in *. cbn [pcs]. fold isnew in *. change (fun p0 : pc => match p0 with Fin true => true | _ => false end) with isnew.
          pose proof (filter_lset isnew p' Ep) as F. pose proof (i_cnt I) as X. unfold added in X. change (fun p0 : pc => match p0 with Fin true => true | _ => false end) with isnew in X.
          destruct Ch as [[-> B]|[Pm [B1 B2]]]; [rewrite B in F; lia|]. rewrite B1, B2 in F. rewrite (Permutation_length Pm). cbn [length]. lia.
      - intros j N. apply nth_error_lset_other. auto.
      - intros kv' q Hk Hq. exists p'. split; [now apply nth_error_lset_same|]. assert (kv' = kv) by congruence. assert (q = p) by congruence. subst. exact Co.
    Qed.
    Lemma Inv_exec sched : forall s, Inv s -> Inv (exec calls sched s) /\
      forall i kv p, nth_error calls i = Some kv -> nth_error (pcs s) i = Some p -> exists p', nth_error (pcs (exec calls sched s)) i = Some p' /\ cost kv p' <= cost kv p - count_occ Nat.eq_dec sched i.
    Proof.
      induction sched as [|j sched IH]; intros s I.
      - split; auto. intros i kv p _ H. exists p. split; auto. cbn. lia.
      - cbn [exec fold_left]. destruct (Inv_step j I) as (I' & Ho & Hs). destruct (IH _ I') as [I2 H2]. split; auto. intros i kv p Hc Hp. cbn [count_occ].
        destruct (Nat.eq_dec j i) as [->|N].
        + destruct (Hs _ _ Hc Hp) as (p1 & P1 & C1). destruct (H2 i kv p1 Hc P1) as (p2 & P2 & C2). exists p2. split; auto. lia.
        + destruct (H2 i kv p Hc) as (p2 & P2 & C2); [rewrite Ho; auto|]. exists p2. auto.
    Qed.
    Lemma cost_0 kv p : thread_ok t0 kv p \/ True -> (forall h, p = Test h \/ p = Cas h \/ p = Check h -> dist (fst kv) h < m) -> cost kv p = 0 -> exists r, p = Fin r.
    Proof. intros _ Hd H. destruct p as [h|h|h|r]; cbn [cost] in H; eauto; pose proof (Hd h ltac:(auto)); lia. Qed.
    Lemma dist_lt k h : dist k h < m. Proof. apply Nat.mod_upper_bound. lia. Qed.
    Lemma wait_free sched : forall i kv, nth_error calls i = Some kv -> 3 * m <= count_occ Nat.eq_dec sched i -> exists r, nth_error (pcs (exec calls sched (start hash t0 calls))) i = Some (Fin r).
    Proof.
      intros i kv Hc Hn. destruct (proj2 (Inv_exec sched Inv_start) i kv (Test (firstIndex hash t0 (fst kv)))) as (p & P & C); auto.
      { cbn [start pcs]. now rewrite nth_error_map, Hc. }
      cbn [cost] in C. assert (Z : cost kv p = 0) by lia. destruct (@cost_0 kv p (or_intror I)) as (r & ->); eauto. intros h _. apply dist_lt.
    Qed.
    Lemma finished_ok sched : let s := exec calls sched (start hash t0 calls) in finished s ->
      wf (tab s) /\ length (entries (tab s)) < m /\ (forall x, In x (entries (tab s)) <-> In x (entries t0) \/ In x calls) /\ length (entries (tab s)) = length (entries t0) + added s.
    Proof.
      intros s F. destruct (Inv_exec sched Inv_start) as [I _]. fold s in I. split; [apply I|]. split; [now apply Inv_room|]. split; [|apply I]. intros x. split.
      - intros H. apply (i_new I) in H. now apply in_app_iff in H.
      - intros [H|H]; [now apply (i_old I)|]. apply In_nth_error in H as (i & Hi). assert (Hl : i < length (pcs s)) by (rewrite (i_len I); apply nth_error_Some; congruence).
        destruct (nth_error (pcs s) i) as [p|] eqn:Ep; [|apply nth_error_None in Ep; lia]. destruct (F p) as (r & ->); [eapply nth_error_In; eauto|].
        apply entries_In. exact (i_thr I Hi Ep).
    Qed.
  End Calls.

  (* lookups *)
  Section Lookup.
    Variable t : table.
    Hypothesis Hw : wf t.
    Hypothesis Hr : length (entries t) < m.
    Variable k : nat.
    Fixpoint upto (d n : nat) : list (nat * nat) :=
      match n with 0 => [] | S n' => match cell t (at_ k d) with Some x => x :: upto (S d) n' | None => [] end end.
    (* the first empty cell on the way *)
    Lemma first_empty : exists d0, d0 < m /\ cell t (at_ k d0) = None /\ forall j, j < d0 -> cell t (at_ k j) <> None.
    Proof.
      destruct Hw as [L _]. destruct (has_empty (t := t)) as (h & H1 & H2); [lia|]. rewrite L in H1. destruct (at_surj k H1) as (d & D1 & ->). clear H1.
      induction d as [d IH] using (well_founded_induction lt_wf).
      assert (X : (exists j, j < d /\ cell t (at_ k j) = None) \/ forall j, j < d -> cell t (at_ k j) <> None).
      { clear. induction d as [|d IH]; [right; intros; lia|]. destruct IH as [(j & A & B)|IH]; [left; exists j; split; auto; lia|].
        destruct (cell t (at_ k d)) eqn:E; [|left; exists d; auto]. right. intros j Hj. destruct (Nat.eq_dec j d) as [->|]; [congruence|apply IH; lia]. }
      destruct X as [(j & A & B)|X]; [apply (IH j); auto; lia|]. exists d. auto.
    Qed.
    Definition along (d0 : nat) : list (nat * nat) := flat_map (fun d => match cell t (at_ k d) with Some x => [x] | None => [] end) (seq 0 d0).
    Definition from (d n : nat) : list (nat * nat) := flat_map (fun d => match cell t (at_ k d) with Some x => [x] | None => [] end) (seq d n).
    Lemma from_S d n x : cell t (at_ k d) = Some x -> from d (S n) = x :: from (S d) n.
    Proof. intros H. unfold from. cbn [seq flat_map]. now rewrite H. Qed.
    Lemma loops d0 : cell t (at_ k d0) = None -> (forall j, j < d0 -> cell t (at_ k j) <> None) -> forall n d fuel, d + n = d0 -> n < fuel ->
      (forall ct, num_loop t k fuel (at_ k d) ct = Some (ct + length (filter (fun x => fst x =? k) (from d n)))) /\
      contains_loop t k fuel (at_ k d) = Some (existsb (fun x => fst x =? k) (from d n)) /\
      (forall v, contains2_loop t k v fuel (at_ k d) = Some (existsb (fun x => (fst x =? k) && (snd x =? v)) (from d n))) /\
      iter_loop t k fuel (at_ k d) = Some (filter (fun x => fst x =? k) (from d n)).
    Proof.
      intros He Hf. destruct Hw as [L _]. induction n as [|n IH]; intros d fuel Hd Hfu; (destruct fuel as [|fuel]; [lia|]).
      - replace d with d0 by lia. cbn [num_loop contains_loop contains2_loop iter_loop]. rewrite He. unfold from. cbn. split; [intros ct; f_equal; lia|]. repeat split; auto.
      - cbn [num_loop contains_loop contains2_loop iter_loop]. destruct (cell t (at_ k d)) as [[k' v']|] eqn:E; [|exfalso; apply (Hf d); auto; lia].
        rewrite (from_S n E). rewrite at_next by auto. destruct (IH (S d) fuel) as (A & B & C & D); [lia|lia|]. cbn [existsb filter fst snd]. repeat split.
        + intros ct. rewrite A. f_equal. destruct (k' =? k); cbn [length]; lia.
        + destruct (k' =? k); auto.
        + intros v. destruct ((k' =? k) && (v' =? v)); auto. apply C.
        + rewrite D. destruct (k' =? k); reflexivity.
    Qed.
    Lemma along_In d0 : d0 < m -> cell t (at_ k d0) = None -> forall v, In (k, v) (from 0 d0) <-> In (k, v) (entries t).
    Proof.
      intros Hd He v. unfold from. rewrite in_flat_map, entries_In. split.
      - intros (d & _ & H). destruct (cell t (at_ k d)) as [x|] eqn:E; [|destruct H]. destruct H as [->|[]]. eauto.
      - intros (h & H). destruct (proj2 Hw _ _ H) as (d & D1 & D2 & P). cbn [fst] in *. exists d. subst h. rewrite H. split; [|now left]. apply in_seq. split; [lia|].
        destruct (Nat.lt_trichotomy d d0) as [C|[->|C]]; auto; [congruence|]. destruct (P d0 C) as (x & X & _). cbn [fst] in X. congruence.
    Qed.
    Lemma from_NoDup d0 : d0 <= m -> NoDup (from 0 d0).
    Proof.
      intros Hd. unfold from. induction d0 as [|d IH]; [constructor|]. rewrite seq_S, flat_map_app. cbn [flat_map Nat.add]. rewrite app_nil_r.
      destruct (cell t (at_ k d)) as [x|] eqn:E; [|rewrite app_nil_r; apply IH; lia]. apply NoDup_app_iff. split; [apply IH; lia|]. split; [repeat constructor; auto|].
      intros y Hy [->|[]]. apply in_flat_map in Hy as (j & Hj & Hy). apply in_seq in Hj. destruct (cell t (at_ k j)) as [z|] eqn:Ez; [|destruct Hy]. destruct Hy as [->|[]].
      pose proof (wf_uniq Hw E Ez) as X. apply at_inj in X; lia.
    Qed.
    Lemma lookup_ok fuel : m <= fuel ->
      (exists l, iterate hash t k fuel = Some l /\ NoDup l /\ forall x, In x l <-> In x (entries t) /\ fst x = k) /\
      num_appearances hash t k fuel = Some (length (filter (fun x => fst x =? k) (entries t))) /\
      (exists b, contains_key hash t k fuel = Some b /\ (b = true <-> exists v, In (k, v) (entries t))) /\
      (forall v, exists b, contains_pair hash t k v fuel = Some b /\ (b = true <-> In (k, v) (entries t))).
    Proof.
      intros Hfu. destruct first_empty as (d0 & D1 & D2 & D3). destruct (loops D2 D3 (n := d0) (d := 0) (fuel := fuel)) as (A & B & C & D); [lia|lia|].
      unfold iterate, num_appearances, contains_key, contains_pair. rewrite at_first by apply Hw.
      assert (In1 : forall x, In x (filter (fun x => fst x =? k) (from 0 d0)) <-> In x (entries t) /\ fst x = k).
      { intros [k' v']. rewrite filter_In. cbn [fst]. rewrite Nat.eqb_eq. split; intros [H1 ->]; split; auto; now apply (along_In D1 D2). }
      split; [|split; [|split]].
      - eexists. split; [exact D|]. split; [apply NoDup_filter, from_NoDup; lia|exact In1].
      - rewrite A. cbn [Nat.add]. f_equal. apply Permutation_length. apply NoDup_Permutation; [apply NoDup_filter, from_NoDup; lia|apply NoDup_filter, wf_NoDup, Hw|].
        intros x. rewrite In1, filter_In, Nat.eqb_eq. reflexivity.
      - eexists. split; [exact B|]. rewrite existsb_exists. split.
        + intros ([k' v'] & H1 & H2). cbn [fst] in H2. apply Nat.eqb_eq in H2. subst k'. exists v'. now apply (along_In D1 D2).
        + intros (v & H). exists (k, v). split; [now apply (along_In D1 D2)|]. cbn. apply Nat.eqb_refl.
      - intros v. eexists. split; [apply C|]. rewrite existsb_exists. split.
        + intros ([k' v'] & H1 & H2). cbn [fst snd] in H2. apply andb_true_iff in H2 as [H2 H3]. apply Nat.eqb_eq in H2, H3. subst. now apply (along_In D1 D2).
        + intros H. exists (k, v). split; [now apply (along_In D1 D2)|]. cbn. now rewrite !Nat.eqb_refl.
    Qed.
  End Lookup.
End Table.
