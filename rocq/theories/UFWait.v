(* C35: the calls that use no lock and no hook end within a bounded number of their own steps. *)
From Verif Require Import Base UFSpec UFRoots UFModel UFLogic UFFind UFUnite UFSys.
Unset Strict Implicit.

(* the bound for one find, and for one insertion or query *)
Definition find_steps (n : nat) : nat := 8 * n + 10.
Definition wait_free_steps (n : nat) : nat := (2 * n + 2) * (2 * find_steps n + 12) + 2 * find_steps n + 12.

Section Wait.
  Variable n : nat.

  (* what the other threads may do to the pointers, as far as needed here *)
  Definition later (P P' : nat -> nat) : Prop := down P' /\ forall x, P x < x -> P' x < x.
  Lemma later_refl P : down P -> later P P.
  Proof. now split. Qed.
  Lemma later_trans P P' P'' : later P P' -> later P' P'' -> later P P''.
  Proof. intros [A B] [C D]. split; auto. Qed.

  (* whatever the others do, the thread has returned after at most c steps of its own *)
  Fixpoint ends (c : nat) (p : prog) (st : list (nat -> prog)) (P : nat -> nat) {struct c} : Prop :=
    forall P', later P P' ->
    match c with
    | 0 => match p, st with Ret _, [] => True | _, _ => False end
    | S c =>
        match p with
        | Ret r => match st with [] => True | k :: st' => ends c (k r) st' P' end
        | Rd a k => a < n /\ ends c (k (P' a)) st P'
        | Wr a v k => a < n /\ ends c k st (fset P' a v)
        | Cas a o w k => a < n /\ (P' a = o -> ends c (k true) st (fset P' a w)) /\ (P' a <> o -> ends c (k false) st P')
        | Bind q k => ends c q (k :: st) P'
        | _ => False
        end
    end.

  Lemma ends_later c p st P P' : later P P' -> ends c p st P -> ends c p st P'.
  Proof. intros H. destruct c; simpl; intros E P'' H'; exact (E P'' (later_trans H H')). Qed.
  Lemma ends_more : forall c c' p st P, c <= c' -> ends c p st P -> ends c' p st P.
  Proof.
    induction c as [|c IH]; intros c' p st P Hc H.
    - destruct c' as [|c']; auto. simpl in *. intros P' HP. specialize (H P' HP).
      destruct p; try contradiction. destruct st; auto. contradiction.
    - destruct c' as [|c']; [lia|]. simpl in *. intros P' HP. specialize (H P' HP).
      assert (Hc' : c <= c') by lia. destruct p; auto.
      + destruct st; eauto.
      + destruct H. split; eauto.
      + destruct H. split; eauto.
      + destruct H as (? & ? & ?). repeat split; eauto.
  Qed.
  Lemma fset_later P a v : down P -> v < a -> later P (fset P a v).
  Proof.
    intros Hd Hv. split; intros x; destruct (Nat.eq_dec a x) as [<-|Hne]; rewrite ?fset_same, ?fset_other by auto; auto; lia.
  Qed.

  (* one step of the system *)
  Lemma ends_step c p st t m : down (par m) -> ends (S c) p st (par m) ->
    let '(m', (p', st')) := tstep n t m (p, st) in ends c p' st' (par m').
  Proof.
    intros Hd H. simpl in H. specialize (H _ (later_refl Hd)). destruct p; simpl; try contradiction.
    - destruct st; auto. destruct c; simpl; auto.
    - destruct H as [Ha H]. apply Nat.ltb_lt in Ha as ->. auto.
    - destruct H as [Ha H]. apply Nat.ltb_lt in Ha as ->. auto.
    - destruct H as (Ha & H1 & H2). apply Nat.ltb_lt in Ha as ->. destruct (Nat.eqb_spec (par m a) old); simpl; auto.
    - auto.
  Qed.

  Lemma ends_Rd c a k st P : (forall P', later P P' -> a < n /\ ends c (k (P' a)) st P') -> ends (S c) (Rd a k) st P.
  Proof. intros H. exact H. Qed.
  Lemma ends_Wr c a v k st P : (forall P', later P P' -> a < n /\ ends c k st (fset P' a v)) -> ends (S c) (Wr a v k) st P.
  Proof. intros H. exact H. Qed.
  Lemma ends_Cas c a o w k st P : (forall P', later P P' -> a < n /\
    (P' a = o -> ends c (k true) st (fset P' a w)) /\ (P' a <> o -> ends c (k false) st P')) -> ends (S c) (Cas a o w k) st P.
  Proof. intros H. exact H. Qed.
  Lemma ends_Ret c r k st P : (forall P', later P P' -> ends c (k r) st P') -> ends (S c) (Ret r) (k :: st) P.
  Proof. intros H. exact H. Qed.
  Lemma ends_Bind c q k st P : (forall P', later P P' -> ends c q (k :: st) P') -> ends (S c) (Bind q k) st P.
  Proof. intros H. exact H. Qed.
  Ltac stp := first [apply ends_Rd | apply ends_Wr | apply ends_Cas | apply ends_Ret | apply ends_Bind].
  Ltac rd := split; [lia|].

  (* -- the finds ---------------------------------------------------------------------------- *)
  (* after the find the thread goes on with Ret r for an r at most i, and below i if i was not a root *)
  Definition goes_on (c : nat) (st : list (nat -> prog)) (P : nat -> nat) (i : nat) : Prop :=
    forall P' r, later P P' -> r <= i -> (P i < i -> r < i) -> ends c (Ret r) st P'.

  Lemma naive_ends c st : forall i P, down P -> i < n -> goes_on c st P i -> ends (2 * i + 2 + c) (find_naive i) st P.
  Proof.
    induction i as [i IH] using lt_wf_ind. intros P Hd Hi Hk. rewrite (frob_eq (find_naive i)). simpl frob.
    apply ends_more with (S (S (2 * i + c))); [lia|]. stp. intros P1 L1. rd.
    destruct (Nat.eqb_spec i (P1 i)) as [E|E].
    - apply ends_more with c; [lia|]. apply Hk; auto. destruct L1 as [_ B]. intros X. apply B in X. lia.
    - stp. intros P2 L2. rd. assert (H1 : P1 i < i) by (destruct L1 as [A _]; specialize (A i); lia).
      assert (H2 : P2 i < i) by now apply L2. apply ends_more with (2 * P2 i + 2 + c); [lia|].
      apply IH; auto; [apply L2|lia|]. intros P3 r L3 Hr _. apply Hk; try lia. eauto using later_trans.
  Qed.

  Lemma compress2_ends c st : forall i j P, down P -> i < n -> (forall P', later P P' -> ends c (Ret j) st P') ->
    (P i < i -> ends (4 * i + 1 + c) (find_compress_loop2 i j) st P) /\ ends (4 * i + 3 + c) (find_compress_loop2 i j) st P.
  Proof.
    induction i as [i IH] using lt_wf_ind. intros j P Hd Hi Hk.
    assert (A : forall P, down P -> (forall P', later P P' -> ends c (Ret j) st P') -> P i < i -> ends (4 * i + 1 + c) (find_compress_loop2 i j) st P).
    { clear P Hd Hk. intros P Hd Hk Hn. rewrite (frob_eq (find_compress_loop2 i j)). simpl frob.
      apply ends_more with (S (4 * i + c)); [lia|]. stp. intros P1 L1. rd.
      assert (H1 : P1 i < i) by now apply L1. destruct (Nat.ltb_spec j (P1 i)).
      - apply ends_more with (S (4 * i - 1 + c)); [lia|]. stp. intros P2 L2. rd.
        apply ends_more with (4 * P1 i + 3 + c); [lia|].
        assert (L3 : later P2 (fset P2 i j)) by (apply fset_later; [apply L2|lia]).
        apply IH; auto; [apply L3|lia|]. intros P' L. apply Hk. eauto using later_trans.
      - apply ends_more with c; [lia|]. auto. }
    split; [now apply A|]. rewrite (frob_eq (find_compress_loop2 i j)). simpl frob.
    apply ends_more with (S (4 * i + 2 + c)); [lia|]. stp. intros P1 L1. rd.
    destruct (Nat.ltb_spec j (P1 i)); [|apply ends_more with c; [lia|auto]].
    assert (Hle : P1 i <= i) by apply L1.
    apply ends_more with (S (4 * i + 1 + c)); [lia|]. stp. intros P2 L2. rd.
    assert (L3 : later P2 (fset P2 i j)) by (apply fset_later; [apply L2|lia]).
    assert (Hk' : forall P', later (fset P2 i j) P' -> ends c (Ret j) st P') by (intros P' L; apply Hk; eauto using later_trans).
    destruct (Nat.eq_dec (P1 i) i) as [->|Hne].
    - apply A; auto; [apply L3|]. rewrite fset_same. lia.
    - apply ends_more with (4 * P1 i + 3 + c); [lia|]. apply IH; auto; [lia|apply L3|lia].
  Qed.
  Lemma compress1_ends c st i : forall j P, down P -> i < n -> j <= i -> P j < j -> goes_on c st P i ->
    (forall P', later P P' -> forall r, r < j -> ends c (Ret r) st P') ->
    ends (2 * j + 4 * i + 5 + c) (find_compress_loop1 i j) st P.
  Proof.
    induction j as [j IH] using lt_wf_ind. intros P Hd Hi Hj Hn Hg Hk. rewrite (frob_eq (find_compress_loop1 i j)). simpl frob.
    apply ends_more with (S (S (2 * j + 4 * i + 3 + c))); [lia|]. stp. intros P1 L1. rd. stp. intros P2 L2.
    assert (H1 : P1 j < j) by now apply L1. rd. assert (L12 : later P P2) by eauto using later_trans.
    destruct (Nat.eqb_spec (P2 (P1 j)) (P1 j)) as [E|E].
    - apply ends_more with (4 * i + 3 + c); [lia|]. apply compress2_ends; [apply L2|auto|]. intros P' L. apply Hk; eauto using later_trans.
    - assert (H2 : P2 (P1 j) < P1 j) by (destruct L2 as [A _]; specialize (A (P1 j)); lia).
      apply ends_more with (2 * P1 j + 4 * i + 5 + c); [lia|]. apply IH; auto; [apply L2|lia| |].
      + intros P' r L Hr Hr'. apply Hg; eauto using later_trans. intros X. apply Hr'. now apply L12.
      + intros P' L r Hr. apply Hk; [eauto using later_trans|lia].
  Qed.
  Lemma compress_ends c st i P : down P -> i < n -> goes_on c st P i -> ends (6 * i + 6 + c) (find_compress i) st P.
  Proof.
    intros Hd Hi Hk. unfold find_compress. apply ends_more with (S (6 * i + 5 + c)); [lia|]. stp. intros P1 L1. rd.
    destruct (Nat.eqb_spec (P1 i) i) as [E|E].
    - apply ends_more with c; [lia|]. apply Hk; auto. intros X. apply L1 in X. lia.
    - assert (H1 : P1 i < i) by (destruct L1 as [A _]; specialize (A i); lia).
      apply ends_more with (2 * i + 4 * i + 5 + c); [lia|]. apply compress1_ends; auto; [apply L1| |].
      + intros P' r L Hr Hr'. apply Hk; eauto using later_trans.
      + intros P' L r Hr. apply Hk; eauto using later_trans. lia.
  Qed.

  Lemma atomic2_ends c st : forall i j P, down P -> i < n -> (forall P', later P P' -> ends c (Ret j) st P') ->
    (P i < i -> ends (6 * i + 1 + c) (find_compress_atomic_loop2 i j) st P) /\ ends (6 * i + 4 + c) (find_compress_atomic_loop2 i j) st P.
  Proof.
    induction i as [i IH] using lt_wf_ind. intros j P Hd Hi Hk.
    assert (A : forall P, down P -> (forall P', later P P' -> ends c (Ret j) st P') -> P i < i -> ends (6 * i + 1 + c) (find_compress_atomic_loop2 i j) st P).
    { clear P Hd Hk. intros P Hd Hk Hn. rewrite (frob_eq (find_compress_atomic_loop2 i j)). simpl frob.
      apply ends_more with (S (6 * i + c)); [lia|]. stp. intros P1 L1. rd.
      assert (H1 : P1 i < i) by now apply L1. destruct (Nat.ltb_spec j (P1 i)).
      - apply ends_more with (S (6 * i - 1 + c)); [lia|]. stp. intros P2 L2. rd. split; intros E.
        + apply ends_more with (6 * P1 i + 4 + c); [lia|].
          assert (L3 : later P2 (fset P2 i j)) by (apply fset_later; [apply L2|lia]).
          apply IH; auto; [apply L3|lia|]. intros P' L. apply Hk. eauto using later_trans.
        + apply ends_more with c; [lia|]. apply Hk. eauto using later_trans.
      - apply ends_more with c; [lia|]. auto. }
    split; [now apply A|]. rewrite (frob_eq (find_compress_atomic_loop2 i j)). simpl frob.
    apply ends_more with (S (6 * i + 3 + c)); [lia|]. stp. intros P1 L1. rd.
    destruct (Nat.ltb_spec j (P1 i)); [|apply ends_more with c; [lia|auto]].
    assert (Hle : P1 i <= i) by apply L1.
    apply ends_more with (S (6 * i + 2 + c)); [lia|]. stp. intros P2 L2. rd. split; intros E.
    2:{ apply ends_more with c; [lia|]. apply Hk. eauto using later_trans. }
    assert (L3 : later P2 (fset P2 i j)) by (apply fset_later; [apply L2|lia]).
    assert (Hk' : forall P', later (fset P2 i j) P' -> ends c (Ret j) st P') by (intros P' L; apply Hk; eauto using later_trans).
    destruct (Nat.eq_dec (P1 i) i) as [->|Hne].
    - apply ends_more with (6 * i + 1 + c); [lia|]. apply A; auto; [apply L3|]. rewrite fset_same. lia.
    - apply ends_more with (6 * P1 i + 4 + c); [lia|]. apply IH; auto; [lia|apply L3|lia].
  Qed.
  Lemma atomic1_ends c st i : forall j P, down P -> i < n -> j <= i -> P j < j -> goes_on c st P i ->
    (forall P', later P P' -> forall r, r < j -> ends c (Ret r) st P') ->
    ends (2 * j + 6 * i + 6 + c) (find_compress_atomic_loop1 i j) st P.
  Proof.
    induction j as [j IH] using lt_wf_ind. intros P Hd Hi Hj Hn Hg Hk. rewrite (frob_eq (find_compress_atomic_loop1 i j)). simpl frob.
    apply ends_more with (S (S (2 * j + 6 * i + 4 + c))); [lia|]. stp. intros P1 L1. rd. stp. intros P2 L2.
    assert (H1 : P1 j < j) by now apply L1. rd. assert (L12 : later P P2) by eauto using later_trans.
    destruct (Nat.eqb_spec (P2 (P1 j)) (P1 j)) as [E|E].
    - apply ends_more with (6 * i + 4 + c); [lia|]. apply atomic2_ends; [apply L2|auto|]. intros P' L. apply Hk; eauto using later_trans.
    - assert (H2 : P2 (P1 j) < P1 j) by (destruct L2 as [A _]; specialize (A (P1 j)); lia).
      apply ends_more with (2 * P1 j + 6 * i + 6 + c); [lia|]. apply IH; auto; [apply L2|lia| |].
      + intros P' r L Hr Hr'. apply Hg; eauto using later_trans. intros X. apply Hr'. now apply L12.
      + intros P' L r Hr. apply Hk; [eauto using later_trans|lia].
  Qed.
  Lemma atomic_ends c st i P : down P -> i < n -> goes_on c st P i -> ends (8 * i + 7 + c) (find_compress_atomic i) st P.
  Proof.
    intros Hd Hi Hk. unfold find_compress_atomic. apply ends_more with (S (8 * i + 6 + c)); [lia|]. stp. intros P1 L1. rd.
    destruct (Nat.eqb_spec (P1 i) i) as [E|E].
    - apply ends_more with c; [lia|]. apply Hk; auto. intros X. apply L1 in X. lia.
    - assert (H1 : P1 i < i) by (destruct L1 as [A _]; specialize (A i); lia).
      apply ends_more with (2 * i + 6 * i + 6 + c); [lia|]. apply atomic1_ends; auto; [apply L1| |].
      + intros P' r L Hr Hr'. apply Hk; eauto using later_trans.
      + intros P' L r Hr. apply Hk; eauto using later_trans. lia.
  Qed.

  Lemma cas_later (P : nat -> nat) i v w : down P -> w < i -> P i = v -> later P (fset P i w).
  Proof. intros. now apply fset_later. Qed.
  Lemma split_ends c st : forall i P, down P -> i < n -> goes_on c st P i ->
    (P i < i -> ends (6 * i + 3 + c) (find_atomic_split i) st P) /\ ends (6 * i + 6 + c) (find_atomic_split i) st P.
  Proof.
    induction i as [i IH] using lt_wf_ind.
    assert (A : forall P, down P -> i < n -> goes_on c st P i -> P i < i -> ends (6 * i + 3 + c) (find_atomic_split i) st P).
    { intros P Hd Hi Hk Hn. rewrite (frob_eq (find_atomic_split i)). simpl frob.
      apply ends_more with (S (S (6 * i + 1 + c))); [lia|]. stp. intros P1 L1. rd. stp. intros P2 L2.
      assert (H1 : P1 i < i) by now apply L1. rd. assert (L12 : later P P2) by eauto using later_trans.
      destruct (Nat.eqb_spec (P1 i) (P2 (P1 i))) as [E|E].
      - apply ends_more with c; [lia|]. apply Hk; auto; lia.
      - assert (H2 : P2 (P1 i) < P1 i) by (destruct L2 as [B _]; specialize (B (P1 i)); lia).
        apply ends_more with (S (6 * i + c)); [lia|]. stp. intros P3 L3. rd.
        assert (X : forall P4, later P3 P4 -> ends (6 * i + c) (find_atomic_split (P1 i)) st P4).
        { intros P4 L4. apply ends_more with (6 * P1 i + 6 + c); [lia|]. assert (L04 : later P P4) by eauto using later_trans. apply IH; auto; [apply L4|lia|].
          intros P' r L Hr _. apply Hk; [eauto using later_trans|lia|lia]. }
        split; intros E3; apply X; [|apply later_refl, L3]. apply fset_later; [apply L3|lia]. }
    intros P Hd Hi Hk. split; [now apply A|]. rewrite (frob_eq (find_atomic_split i)). simpl frob.
    apply ends_more with (S (S (6 * i + 4 + c))); [lia|]. stp. intros P1 L1. rd. stp. intros P2 L2.
    assert (H1 : P1 i <= i) by apply L1. rd. assert (L12 : later P P2) by eauto using later_trans.
    destruct (Nat.eqb_spec (P1 i) (P2 (P1 i))) as [E|E].
    - apply ends_more with c; [lia|]. apply Hk; auto. intros Y. now apply L1.
    - assert (H2 : P2 (P1 i) < P1 i) by (destruct L2 as [B _]; specialize (B (P1 i)); lia).
      apply ends_more with (S (6 * i + 3 + c)); [lia|]. stp. intros P3 L3. rd.
      assert (X : forall P4, later P3 P4 -> ends (6 * i + 3 + c) (find_atomic_split (P1 i)) st P4).
      { intros P4 L4. assert (L04 : later P P4) by eauto using later_trans. destruct (Nat.eq_dec (P1 i) i) as [Ei|Hne].
        - rewrite Ei in *. apply A; auto; [apply L4| |]; [|apply L4; apply L3; auto].
          intros P' r L Hr Hr'. apply Hk; eauto using later_trans. intros Y. apply Hr'. now apply L04.
        - apply ends_more with (6 * P1 i + 6 + c); [lia|]. apply IH; auto; [lia|apply L4|lia|].
          intros P' r L Hr _. apply Hk; [eauto using later_trans|lia|lia]. }
      split; intros E3; apply X; [|apply later_refl, L3]. apply fset_later; [apply L3|lia].
  Qed.
  Lemma halve_ends c st : forall i P, down P -> i < n -> goes_on c st P i -> ends (4 * i + 3 + c) (find_atomic_halve i) st P.
  Proof.
    induction i as [i IH] using lt_wf_ind. intros P Hd Hi Hk. rewrite (frob_eq (find_atomic_halve i)). simpl frob.
    apply ends_more with (S (S (4 * i + 1 + c))); [lia|]. stp. intros P1 L1. rd. stp. intros P2 L2.
    assert (H1 : P1 i <= i) by apply L1. rd. assert (L12 : later P P2) by eauto using later_trans.
    destruct (Nat.eqb_spec (P1 i) (P2 (P1 i))) as [E|E].
    - apply ends_more with c; [lia|]. apply Hk; auto. intros Y. now apply L1.
    - assert (H2 : P2 (P1 i) < P1 i) by (destruct L2 as [B _]; specialize (B (P1 i)); lia).
      assert (Hn : P2 i < i).
      { destruct (Nat.eq_dec (P1 i) i) as [Ei|Hne]; [now rewrite Ei in H2|]. apply L2. lia. }
      apply ends_more with (S (S (4 * i - 1 + c))); [lia|]. stp. intros P3 L3. rd.
      assert (X : forall P4, later P3 P4 -> forall P5, later P4 P5 -> i < n /\ ends (4 * i - 1 + c) (find_atomic_halve (P5 i)) st P5).
      { intros P4 L4 P5 L5. assert (L25 : later P2 P5) by eauto using later_trans. split; auto.
        assert (H5 : P5 i < i) by now apply L25. apply ends_more with (4 * P5 i + 3 + c); [lia|].
        apply IH; auto; [apply L5|lia|]. intros P' r L Hr _. apply Hk; [eauto using later_trans|lia|lia]. }
      split; intros E3; apply ends_Rd; apply X; [|apply later_refl, L3]. apply fset_later; [apply L3|lia].
  Qed.

  Lemma find_ends c st f i P : down P -> i < n -> goes_on c st P i -> ends (find_steps n + c) (find f i) st P.
  Proof.
    intros Hd Hi Hk. unfold find_steps. destruct f; simpl find.
    - apply ends_more with (2 * i + 2 + c); [lia|]. now apply naive_ends.
    - apply ends_more with (6 * i + 6 + c); [lia|]. now apply compress_ends.
    - apply ends_more with (8 * i + 7 + c); [lia|]. now apply atomic_ends.
    - apply ends_more with (6 * i + 6 + c); [lia|]. now apply split_ends.
    - apply ends_more with (4 * i + 3 + c); [lia|]. now apply halve_ends.
  Qed.
  (* a call of find inside another program *)
  Lemma call_ends c st f i k P : down P -> i < n ->
    (forall P' r, later P P' -> r <= i -> (P i < i -> r < i) -> ends c (k r) st P') ->
    ends (find_steps n + 2 + c) (Bind (find f i) k) st P.
  Proof.
    intros Hd Hi Hk. apply ends_more with (S (find_steps n + S c)); [lia|]. stp. intros P1 L1. apply find_ends; auto; [apply L1|].
    intros P2 r L2 Hr Hr'. stp. intros P3 L3. apply Hk; eauto using later_trans. intros X. apply Hr'. now apply L1.
  Qed.

  (* -- the insertions ------------------------------------------------------------------------ *)
  Variable mx : nat.
  Notation F := (find_steps n).
  Definition cost : nat := 2 * F + 12.

  Lemma ret_ends c r P : ends c (Ret r) [] P.
  Proof. destruct c; simpl; auto. Qed.
  Lemma compress_both_ends f x y r P : down P -> x < n -> y < n -> ends (2 * F + 4) (compress_both f x y r) [] P.
  Proof.
    intros Hd Hx Hy. unfold compress_both. destruct (is_naive f); [apply ret_ends|].
    apply ends_more with (F + 2 + (F + 2)); [lia|]. apply call_ends; auto. intros P1 r1 L1 _ _.
    apply ends_more with (F + 2 + 0); [lia|]. apply call_ends; auto; [apply L1|]. intros P2 r2 L2 _ _. apply ret_ends.
  Qed.

  (* the measure: the sum of the two current vertices, and one more if both may still be roots *)
  Definition moves (e : nat) (P : nat -> nat) (u v : nat) : Prop := e = 1 \/ e = 0 /\ (P u < u \/ P v < v).
  Lemma nonroot (P : nat -> nat) x : down P -> P x <> x -> P x < x.
  Proof. intros H Hn. specialize (H x). lia. Qed.

  Lemma unite_ends f : forall s e u v P, u + v + e = s -> down P -> u < n -> v < n -> moves e P u v ->
    ends (cost * (s + 1)) (unite_loop mx f u v) [] P.
  Proof.
    induction s as [s IH] using lt_wf_ind. intros e u v P Hs Hd Hu Hv Hm.
    rewrite (frob_eq (unite_loop mx f u v)). simpl frob.
    apply ends_more with (F + 2 + (F + 2 + S (S (cost * s + 6)))); [unfold cost; nia|].
    apply call_ends; auto. intros P1 u' L1 Hu' Hu2. apply call_ends; auto; [apply L1|]. intros P2 v' L2 Hv' Hv2.
    assert (L02 : later P P2) by eauto using later_trans.
    assert (Hsum : u' + v' < s).
    { destruct Hm as [->|[-> [Hm|Hm]]]; [lia|apply Hu2 in Hm; lia|]. apply L1 in Hm. apply Hv2 in Hm. lia. }
    destruct (Nat.eqb_spec u' v') as [E|E]; [apply ret_ends|].
    assert (Again : forall P', later P2 P' -> (P' u' < u' \/ P' v' < v') -> ends (cost * s + 6) (unite_loop mx f u' v') [] P').
    { intros P' L H. apply ends_more with (cost * (u' + v' + 0 + 1)); [nia|]. eapply (IH (u' + v' + 0)); [lia|reflexivity|apply L|lia|lia|]. right. auto. }
    destruct (Nat.ltb_spec v' u').
    - apply ends_Rd. intros P3 L3. split; [lia|]. destruct (Nat.eqb_spec (P3 u') u') as [E3|E3].
      + apply ends_Cas. intros P4 L4. split; [lia|]. split; intros E4; [apply ret_ends|].
        apply Again; [eauto using later_trans|]. left. apply nonroot; auto. apply L4.
      + apply ends_more with (cost * s + 6); [lia|]. apply Again; auto. left. apply nonroot; auto. apply L3.
    - apply ends_Rd. intros P3 L3. split; [lia|]. destruct (Nat.eqb_spec (P3 v') v') as [E3|E3].
      + apply ends_Cas. intros P4 L4. split; [lia|]. split; intros E4; [apply ret_ends|].
        apply Again; [eauto using later_trans|]. right. apply nonroot; auto. apply L4.
      + apply ends_more with (cost * s + 6); [lia|]. apply Again; auto. right. apply nonroot; auto. apply L3.
  Qed.

  Lemma impl_same f u P : forall c, ends c (unite_impl f u u) [] P.
  Proof. intros c. rewrite (frob_eq (unite_impl f u u)). simpl frob. rewrite Nat.eqb_refl. apply ret_ends. Qed.
  Lemma impl_ends f : forall s e u v P, u + v + e = s -> down P -> u < n -> v < n -> moves e P u v ->
    ends (cost * (s + 1)) (unite_impl f u v) [] P.
  Proof.
    induction s as [s IH] using lt_wf_ind. intros e u v P Hs Hd Hu Hv Hm.
    rewrite (frob_eq (unite_impl f u v)). simpl frob. destruct (Nat.eqb_spec u v) as [E0|E0]; [apply ret_ends|].
    apply ends_more with (F + 2 + (F + 2 + S (S (cost * s + 6)))); [unfold cost; nia|].
    apply call_ends; auto. intros P1 u' L1 Hu' Hu2. apply call_ends; auto; [apply L1|]. intros P2 v' L2 Hv' Hv2.
    assert (L02 : later P P2) by eauto using later_trans.
    assert (Hsum : u' + v' < s).
    { destruct Hm as [->|[-> [Hm|Hm]]]; [lia|apply Hu2 in Hm; lia|]. apply L1 in Hm. apply Hv2 in Hm. lia. }
    assert (Again : forall P', later P2 P' -> (P' u' < u' \/ P' v' < v') -> ends (cost * s + 6) (unite_impl f u' v') [] P').
    { intros P' L H. apply ends_more with (cost * (u' + v' + 0 + 1)); [nia|]. eapply (IH (u' + v' + 0)); [lia|reflexivity|apply L|lia|lia|]. right. auto. }
    destruct (Nat.ltb_spec v' u'); [|destruct (Nat.ltb_spec u' v')].
    - apply ends_Rd. intros P3 L3. split; [lia|]. destruct (Nat.eqb_spec (P3 u') u') as [E3|E3].
      + apply ends_Cas. intros P4 L4. split; [lia|]. split; intros E4; [apply ret_ends|].
        apply Again; [eauto using later_trans|]. left. apply nonroot; auto. apply L4.
      + apply ends_more with (cost * s + 6); [lia|]. apply Again; auto. left. apply nonroot; auto. apply L3.
    - apply ends_Rd. intros P3 L3. split; [lia|]. destruct (Nat.eqb_spec (P3 v') v') as [E3|E3].
      + apply ends_Cas. intros P4 L4. split; [lia|]. split; intros E4; [apply ret_ends|].
        apply Again; [eauto using later_trans|]. right. apply nonroot; auto. apply L4.
      + apply ends_more with (cost * s + 6); [lia|]. apply Again; auto. right. apply nonroot; auto. apply L3.
    - assert (u' = v') as -> by lia. apply impl_same.
  Qed.

  Lemma early_ends f x y : x < n -> y < n -> forall s u v P, u + v = s -> down P -> u < n -> v < n ->
    ends (cost * (s + 1)) (early_loop mx f x y u v) [] P.
  Proof.
    intros Hx Hy. induction s as [s IH] using lt_wf_ind. intros u v P Hs Hd Hu Hv.
    rewrite (frob_eq (early_loop mx f x y u v)). simpl frob. destruct (Nat.eqb_spec u v) as [E0|E0].
    { assert (H : ends (2 * F + 4) (compress_both f x y mx) [] P) by now apply compress_both_ends.
      apply ends_more with (2 * F + 4); [unfold cost; nia|]. rewrite (frob_eq (compress_both f x y mx)) in H. exact H. }
    set (u' := if u <? v then v else u). set (v' := if u <? v then u else v).
    assert (Huv : v' < u' /\ u' < n /\ u' + v' = s) by (unfold u', v'; destruct (Nat.ltb_spec u v); lia).
    clearbody u' v'. destruct Huv as (Hlt & Hu' & Hs').
    assert (Retry : forall P', down P' -> P' u' < u' ->
       ends (cost * s + 3) (Rd u' (fun z => Rd z (fun w => Cas u' z w (fun _ => early_loop mx f x y w v')))) [] P').
    { intros P' Hd' Hn. apply ends_more with (S (S (S (cost * s)))); [lia|].
      apply ends_Rd. intros P1 L1. split; auto. assert (H1 : P1 u' < u') by now apply L1.
      apply ends_Rd. intros P2 L2. split; [lia|]. assert (H2 : P2 (P1 u') <= P1 u') by apply L2.
      apply ends_Cas. intros P3 L3. split; auto.
      assert (X : forall P4, down P4 -> ends (cost * s) (early_loop mx f x y (P2 (P1 u')) v') [] P4).
      { intros P4 Hd4. apply ends_more with (cost * (P2 (P1 u') + v' + 1)); [nia|]. apply (IH (P2 (P1 u') + v')); auto; lia. }
      split; intros _; apply X; [|apply L3]. apply fset_later; [apply L3|lia]. }
    apply ends_more with (S (S (cost * s + 3 + (2 * F + 4)))); [unfold cost; nia|].
    apply ends_Rd. intros P1 L1. split; auto. destruct (Nat.eqb_spec (P1 u') u') as [E|E].
    - apply ends_Cas. intros P2 L2. split; auto. split; intros E2.
      + apply ends_more with (2 * F + 4); [lia|]. apply compress_both_ends; auto. apply fset_later; [apply L2|auto].
      + apply ends_more with (cost * s + 3); [lia|]. apply Retry; [apply L2|]. apply nonroot; [apply L2|auto].
    - apply ends_more with (cost * s + 3); [lia|]. apply Retry; [apply L1|]. apply nonroot; [apply L1|auto].
  Qed.

  Lemma link_ends : forall s p1 p2 P, p1 + p2 = s -> down P -> p1 < n -> p2 < n -> ends (cost * (s + 1)) (link_loop p1 p2) [] P.
  Proof.
    induction s as [s IH] using lt_wf_ind. intros p1 p2 P Hs Hd H1 H2.
    rewrite (frob_eq (link_loop p1 p2)). simpl frob. destruct (Nat.eqb_spec p1 p2) as [E0|E0]; [apply ret_ends|].
    set (high := if p2 <? p1 then p1 else p2). set (low := p1 + p2 - high).
    assert (Hh : low < high /\ high < n /\ low + high = s) by (unfold low, high; destruct (Nat.ltb_spec p2 p1); lia).
    clearbody low high. destruct Hh as (Hlt & Hh & Hs').
    assert (Again : forall P', down P' -> P' high < high ->
       ends (cost * s + 3) (Rd high (fun ph => Rd ph (fun q1 => Rd low (fun q2 => link_loop q1 q2)))) [] P').
    { intros P' Hd' Hn. apply ends_more with (S (S (S (cost * s)))); [lia|].
      apply ends_Rd. intros P1 L1. split; auto. assert (A1 : P1 high < high) by now apply L1.
      apply ends_Rd. intros P2 L2. split; [lia|]. assert (A2 : P2 (P1 high) <= P1 high) by apply L2.
      apply ends_Rd. intros P3 L3. split; [lia|]. assert (A3 : P3 low <= low) by apply L3.
      apply ends_more with (cost * (P2 (P1 high) + P3 low + 1)); [nia|].
      apply (IH (P2 (P1 high) + P3 low)); auto; try lia. apply L3. }
    apply ends_more with (S (S (cost * s + 3))); [unfold cost; nia|].
    apply ends_Rd. intros P1 L1. split; auto. destruct (P1 high =? low); [apply ret_ends|].
    destruct (Nat.eqb_spec (P1 high) high) as [E|E].
    - apply ends_Cas. intros P2 L2. split; auto. split; intros E2; [apply ret_ends|].
      apply Again; [apply L2|]. apply nonroot; [apply L2|auto].
    - apply ends_more with (cost * s + 3); [lia|]. apply Again; [apply L1|]. apply nonroot; [apply L1|auto].
  Qed.

  Lemma splice_ends c st s i x P : s <> SpliceAtomic -> down P -> i < n -> P i < i ->
    (forall P' z, later P P' -> z < i -> ends c (Ret z) st P') -> ends (3 + c) (splice s i x) st P.
  Proof.
    intros Hs Hd Hi Hn Hk. destruct s; [| |congruence]; simpl splice;
    apply ends_Rd; intros P1 L1; (split; [auto|]); assert (A1 : P1 i < i) by (now apply L1);
    apply ends_Rd; intros P2 L2; (split; [lia|]); assert (A2 : P2 (P1 i) <= P1 i) by (apply L2);
    (destruct (Nat.eqb_spec (P1 i) (P2 (P1 i))) as [E|E]; [apply ends_more with c; [lia|]; apply Hk; eauto using later_trans|]);
    apply ends_Cas; intros P3 L3; (split; [auto|]).
    - assert (L4 : later P2 (fset P3 i (P2 (P1 i)))) by (apply (later_trans L3), fset_later; [apply L3|lia]).
      split; intros _; apply Hk; eauto using later_trans; lia.
    - assert (L4 : later P2 (fset P3 i (P2 (P1 i)))) by (apply (later_trans L3), fset_later; [apply L3|lia]).
      split; intros _; apply Hk; eauto using later_trans; lia.
  Qed.

  Lemma rem_ends f s x y : s <> SpliceAtomic -> x < n -> y < n -> forall k rx ry P, rx + ry = k -> down P -> rx < n -> ry < n ->
    ends (cost * (k + 1)) (rem_cas_loop mx f s x y rx ry) [] P.
  Proof.
    intros Hsp Hx Hy. induction k as [k IH] using lt_wf_ind. intros rx ry P Hk Hd Hrx Hry.
    rewrite (frob_eq (rem_cas_loop mx f s x y rx ry)). simpl frob.
    apply ends_more with (S (S (S (S (S (S (5 + cost * k + (2 * F + 1)))))))); [unfold cost; nia|].
    apply ends_Rd. intros P1 L1. split; auto. apply ends_Rd. intros P2 L2. split; auto.
    destruct (P1 rx =? P2 ry); [apply ret_ends|].
    apply ends_Rd. intros P3 L3. split; auto. apply ends_Rd. intros P4 L4. split; auto. cbv zeta.
    set (sw := P4 rx <? P3 ry). set (rx' := if sw then ry else rx). set (ry' := if sw then rx else ry).
    assert (Hp : (if sw then P4 rx else P3 ry) <= rx').
    { unfold rx', sw. destruct (Nat.ltb_spec (P4 rx) (P3 ry)).
      - assert (P3 ry <= ry) by apply L3. lia.
      - assert (P4 rx <= rx) by apply L4. lia. }
    assert (Hr : rx' < n /\ ry' < n /\ rx' + ry' = k) by (unfold rx', ry'; destruct sw; lia).
    set (py := if sw then P4 rx else P3 ry) in *. clearbody py rx' ry'. destruct Hr as (Hrx' & Hry' & Hk').
    assert (Again : forall P', down P' -> P' rx' < rx' ->
      ends (5 + cost * k) (Bind (splice s rx' ry') (fun z => rem_cas_loop mx f s x y z ry')) [] P').
    { intros P' Hd' Hn. change (5 + cost * k) with (S (3 + S (cost * k))). apply ends_Bind. intros P5 L5.
      apply splice_ends; auto; [apply L5|now apply L5|]. intros P6 z L6 Hz. apply ends_Ret. intros P7 L7.
      apply ends_more with (cost * (z + ry' + 1)); [nia|]. apply (IH (z + ry')); auto; try lia. apply L7. }
    apply ends_Rd. intros P5 L5. split; auto. destruct (Nat.eqb_spec rx' (P5 rx')) as [E|E].
    - apply ends_Cas. intros P6 L6. split; auto. split; intros E6.
      + apply ends_more with (2 * F + 4); [lia|]. apply compress_both_ends; auto. destruct (Nat.eq_dec py rx') as [->|Hne].
        * intros z. destruct (Nat.eq_dec rx' z) as [<-|]; [rewrite fset_same; lia|rewrite fset_other by auto; apply L6].
        * apply fset_later; [apply L6|lia].
      + apply ends_more with (5 + cost * k); [lia|]. apply Again; [apply L6|]. apply nonroot; [apply L6|auto].
    - apply ends_more with (5 + cost * k); [lia|]. apply Again; [apply L5|]. apply nonroot; [apply L5|auto].
  Qed.

  (* the strategies without locks and hooks *)
  Definition no_waiting (o : unite_option) : Prop :=
    match o with UUnite | UEarly | USimple | ULink => True | URemCAS s => s <> SpliceAtomic | UND | URemLock _ => False end.

  Lemma update_ends f o x P : no_waiting o -> down P -> fst (endpoints x) < n -> snd (endpoints x) < n ->
    ends (wait_free_steps n) (run_update mx f o x) [] P.
  Proof.
    intros Ho Hd Hu Hv. unfold wait_free_steps. fold cost. destruct x as [u v|u v]; simpl in *.
    - destruct o; simpl in *; try contradiction.
      + apply ends_more with (cost * (u + v + 1 + 1)); [unfold cost; nia|]. eapply unite_ends; eauto. now left.
      + apply ends_more with (cost * (u + v + 1)); [unfold cost; nia|]. now apply early_ends.
      + apply ends_more with (cost * (u + v + 1 + 1)); [unfold cost; nia|]. eapply impl_ends; eauto. now left.
      + apply ends_more with (S (S (cost * (u + v + 1)))); [unfold cost; nia|]. unfold link.
        apply ends_Rd. intros P1 L1. split; auto. apply ends_Rd. intros P2 L2. split; auto.
        assert (A1 : P1 u <= u) by apply L1. assert (A2 : P2 v <= v) by apply L2.
        apply ends_more with (cost * (P1 u + P2 v + 1)); [nia|]. apply link_ends; auto; try lia. apply L2.
      + apply ends_more with (cost * (u + v + 1)); [unfold cost; nia|]. now apply rem_ends.
    - apply ends_more with (F + 2 + (F + 2)); [unfold cost; nia|]. apply call_ends; auto. intros P1 r1 L1 _ _.
      apply ends_more with (F + 2 + 0); [lia|]. apply call_ends; auto; [apply L1|]. intros P2 r2 L2 _ _. apply ret_ends.
  Qed.
  Lemma label_ends f i P : down P -> i < n -> ends (wait_free_steps n) (label_vertex f i) [] P.
  Proof.
    intros Hd Hi. unfold wait_free_steps, label_vertex. apply ends_more with (F + 2 + 1); [nia|]. apply call_ends; auto.
    intros P1 r L1 _ _. apply ends_Wr. intros P2 L2. split; auto. apply ret_ends.
  Qed.
  Lemma label_compress_ends i P : down P -> i < n -> ends (wait_free_steps n) (find_compress i) [] P.
  Proof.
    intros Hd Hi. unfold wait_free_steps. apply ends_more with (F + 0); [nia|]. apply (@find_ends 0 [] FindCompress); auto.
    intros P1 r L1 _ _. apply ret_ends.
  Qed.

  (* -- the system ------------------------------------------------------------------------------ *)
  Section System.
    Variable C : nat -> nat -> Prop.
    Variable md : mode.
    Lemma guar_later t m m' : down (par m) -> guar C md t m m' -> later (par m) (par m').
    Proof.
      intros Hd Hg.
      assert (Hs : (forall x, par m' x = par m x) -> later (par m) (par m')).
      { intros E. split; intros x; rewrite E; auto. }
      assert (Hw : forall a v, v < a -> upd1 (par m) (par m') a v -> later (par m) (par m')).
      { intros a v Hv [U1 U2]. split; intros x; (destruct (Nat.eq_dec x a) as [->|Hne]; [rewrite U1; lia|rewrite U2 by auto; auto]). }
      destruct Hg; eauto.
    Qed.
    Hypothesis Crefl : forall x, C x x.
    Hypothesis Csym : forall x y, C x y -> C y x.
    Hypothesis Ctrans : forall x y z, C x y -> C y z -> C x z.
    Variable Q : nat -> post.

    Lemma exec_ends : forall sched s b, (forall k, sys_safe n C md k (fun _ => True) s Q) ->
      (forall t p st, nth_error (snd s) t = Some (p, st) -> ends (b t) p st (par (fst s))) ->
      forall t, t < length (snd s) -> b t <= count_occ Nat.eq_dec sched t -> exists r, returned (exec n sched s) t r.
    Proof.
      induction sched as [|a sched IH]; intros s b Hs Hb t Ht Hc.
      - simpl in *. destruct (nth_error (snd s) t) as [[p st]|] eqn:E; [|apply nth_error_None in E; lia].
        specialize (Hb t p st E). assert (b t = 0) as E0 by lia. rewrite E0 in Hb. simpl in Hb.
        assert (Hd : down (par (fst s))) by (destruct (Hs 0) as [[? _] _]; auto).
        specialize (Hb _ (later_refl Hd)). destruct p; try contradiction. destruct st; [|contradiction]. exists r. exact E.
      - change (exec n (a :: sched) s) with (exec n sched (sys_step n s a)).
        assert (Hd : down (par (fst s))) by (destruct (Hs 0) as [[? _] _]; auto).
        set (b' := fun t => if t =? a then pred (b t) else b t).
        apply (IH (sys_step n s a) b').
        + intros k. apply sys_safe_step; auto.
        + intros t' p' st' E'. unfold sys_step in *. destruct (nth_error (snd s) a) as [[p st]|] eqn:E.
          * pose proof (@safe_thread_step n C md 0 a st p (fst s) (Q a)) as Hg.
            pose proof (Hb a p st E) as Hba.
            assert (Hst : forall c, ends (S c) p st (par (fst s)) ->
               let '(m', (p', st')) := tstep n a (fst s) (p, st) in ends c p' st' (par m')) by (intros c; now apply ends_step).
            destruct (tstep n a (fst s) (p, st)) as [m' [p2 st2]] eqn:Et.
            assert (HL : later (par (fst s)) (par m')).
            { apply guar_later with a; auto. apply Hg; [apply (Hs 1)|]. apply (Hs 1); auto. }
            simpl in E' |- *. assert (Hlt : a < length (snd s)) by (apply nth_error_Some; congruence).
            unfold b'. destruct (Nat.eqb_spec t' a) as [->|Hne].
            -- rewrite nth_error_lset_same in E' by auto. injection E' as <- <-.
               destruct (b a) as [|c] eqn:Eb; [|now apply Hst]. apply (Hst 0). apply ends_more with 0; auto.
            -- rewrite nth_error_lset_other in E' by auto. eapply ends_later; eauto.
          * unfold b'. destruct (Nat.eqb_spec t' a) as [->|Hne]; [congruence|]. auto.
        + unfold sys_step. destruct (nth_error (snd s) a) as [[p st]|]; auto. destruct (tstep n a (fst s) (p, st)). simpl. now rewrite length_lset.
        + unfold b'. simpl in Hc. destruct (Nat.eq_dec a t) as [->|Hne].
          * rewrite Nat.eqb_refl. lia.
          * destruct (Nat.eqb_spec t a); [congruence|lia].
    Qed.
  End System.

  Theorem updates_return f o P0 ups sched : no_waiting o -> (forall x, P0 x <= x) -> in_range n ups ->
    forall t, t < length ups -> wait_free_steps n <= count_occ Nat.eq_dec sched t ->
    exists r, returned (exec n sched (init P0 (map (run_update mx f o) ups))) t r.
  Proof.
    intros Ho Hd Hr t Ht Hc.
    eapply exec_ends with (C := connected_from P0 (inserted ups)) (md := mode_of o) (Q := the_post ups) (b := fun _ => wait_free_steps n); auto.
    - apply cf_refl.
    - apply cf_sym.
    - apply cf_trans.
    - intros k. apply (@run_safe n mx f o) with (sched := []); auto.
      + destruct o; simpl in Ho; split; congruence.
      + intros; eapply In_inserted; eauto.
    - intros t' p st E. simpl in E. rewrite map_map, nth_error_map in E. destruct (nth_error ups t') as [x|] eqn:Ex; [|discriminate].
      injection E as <- <-. destruct (Hr x (nth_error_In _ _ Ex)). now apply update_ends.
    - simpl. rewrite !map_length. auto.
  Qed.

  Theorem labels_return P0 p sched : (exists f, p = label_vertex f) \/ p = find_compress -> (forall x, P0 x <= x) ->
    forall t, t < n -> wait_free_steps n <= count_occ Nat.eq_dec sched t ->
    exists r, returned (exec n sched (init P0 (label_pass n p))) t r.
  Proof.
    intros Hp Hd t Ht Hc. set (C := fun x y => root P0 x = root P0 y).
    assert (Crefl : forall x, C x x) by (intros; reflexivity).
    assert (Csym : forall x y, C x y -> C y x) by (unfold C; congruence).
    assert (Ctrans : forall x y z, C x y -> C y z -> C x z) by (unfold C; congruence).
    assert (Hi0 : Inv C (fst (init P0 (label_pass n p)))).
    { split; simpl; auto. intros x. unfold C. symmetry. now apply root_par. }
    assert (Hsafe : forall k t m, t < n -> Inv C m -> safe n C Label k t (p t) m (flat_post t)).
    { intros k t' m Hn Hi. destruct Hp as [(f & ->)| ->]; [now apply label_safe|now apply label_find_compress]. }
    assert (Hat : forall t' q st, nth_error (snd (init P0 (label_pass n p))) t' = Some (q, st) -> t' < n /\ q = p t' /\ st = []).
    { intros t' q st E. simpl in E. unfold label_pass in E. rewrite map_map, nth_error_map in E.
      destruct (nth_error (seq 0 n) t') as [i|] eqn:Ei; [|discriminate]. injection E as <- <-.
      assert (Hlt : t' < n) by (rewrite <- (seq_length n 0); apply nth_error_Some; congruence).
      pose proof (nth_error_nth _ _ 0 Ei) as En. rewrite seq_nth in En by auto. simpl in En. now subst i. }
    eapply exec_ends with (C := C) (md := Label) (Q := fun t => flat_post t) (b := fun _ => wait_free_steps n); auto.
    - intros k. split; auto. intros t' q st _ E. apply Hat in E as (Hn & -> & ->). simpl. now apply Hsafe.
    - intros t' q st E. apply Hat in E as (Hn & -> & ->). destruct Hp as [(f & ->)| ->]; [now apply label_ends|now apply label_compress_ends].
    - simpl. unfold label_pass. now rewrite !map_length, seq_length.
  Qed.
End Wait.
