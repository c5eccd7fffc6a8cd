(* Trees whose parents increase a key: roots, linking, path splitting. *)
From Verif Require Import Base UFSpec.
Unset Strict Implicit.

Inductive rooted (P : nat -> nat) : nat -> nat -> Prop :=
| r_here x : P x = x -> rooted P x x
| r_up x r : P x <> x -> rooted P (P x) r -> rooted P x r.

Lemma rooted_fix P x r : rooted P x r -> P r = r.
Proof. induction 1; auto. Qed.
Lemma rooted_det P x r s : rooted P x r -> rooted P x s -> r = s.
Proof. intros H. revert s. induction H as [x E|x r E H IH]; intros s Hs; inversion Hs; subst; try congruence; auto. Qed.
Lemma rooted_up P x r : rooted P (P x) r -> rooted P x r.
Proof.
  intros H. destruct (Nat.eq_dec (P x) x) as [E|E]; [|now apply r_up].
  rewrite E in H. exact H.
Qed.
Lemma rooted_down P x r : rooted P x r -> rooted P (P x) r.
Proof. intros H. inversion H as [y E|y s E H1]; subst; auto. now rewrite E. Qed.
Lemma rooted_tree P x r : rooted P x r <-> tree_root P x r.
Proof.
  split.
  - intros H. split; [eapply rooted_fix; eauto|]. induction H as [x E|x r E H [k IH]].
    + now exists 0.
    + exists (S k). rewrite <- IH. clear. induction k as [|k IHk]; simpl; [reflexivity|]. now rewrite <- IHk.
  - intros [E [k Hk]]. revert x Hk. induction k as [|k IH]; intros x Hk; simpl in Hk.
    + subst x. now apply r_here.
    + apply rooted_up. apply IH. rewrite <- Hk. clear. induction k as [|k IHk]; simpl; [reflexivity|]. now rewrite IHk.
Qed.

Definition same (P : nat -> nat) (x y : nat) : Prop := exists r, rooted P x r /\ rooted P y r.
Lemma same_spec P x y : same P x y <-> same_tree P x y.
Proof. unfold same, same_tree. split; intros [r [A B]]; exists r; rewrite !rooted_tree in *; auto. Qed.
Lemma same_sym P x y : same P x y -> same P y x.
Proof. intros [r [A B]]. exists r. auto. Qed.
Lemma same_trans P x y z : same P x y -> same P y z -> same P x z.
Proof. intros [r [A B]] [s [C D]]. rewrite (rooted_det B C) in *. exists s. auto. Qed.

Section Key.
  Variable n : nat.
  (* (key, id) in lexicographic order *)
  Definition kl (key : nat -> nat) (a b : nat) : Prop := key a < key b \/ (key a = key b /\ a < b).
  Definition mu (key : nat -> nat) (x : nat) : nat := (n - key x) * (n + 1) + (n - x).
  Lemma kl_trans key a b c : kl key a b -> kl key b c -> kl key a c.
  Proof. unfold kl. lia. Qed.
  Lemma kl_mu key a b : kl key a b -> key b + b <= n -> mu key b < mu key a.
  Proof.
    unfold kl, mu. intros H Hb. destruct H as [H|[H1 H2]].
    - assert ((n - key b) * (n + 1) + (n + 1) <= (n - key a) * (n + 1)); [|lia].
      replace ((n - key b) * (n + 1) + (n + 1)) with (S (n - key b) * (n + 1)) by lia.
      apply Nat.mul_le_mono_r. lia.
    - rewrite H1. lia.
  Qed.
  Lemma kl_neq key a b : kl key a b -> a <> b.
  Proof. unfold kl. intros H ->. lia. Qed.

  (* a tree structure on 0 .. n-1 *)
  Definition tree (key P : nat -> nat) : Prop :=
    forall x, x < n -> P x < n /\ key x + x <= n /\ (P x <> x -> kl key x (P x)).

  Lemma up_ind key P (Q : nat -> Prop) : tree key P ->
    (forall x, x < n -> (forall y, y < n -> kl key x y -> Q y) -> Q x) -> forall x, x < n -> Q x.
  Proof.
    intros HT H x. remember (mu key x) as k eqn:E. revert x E. induction k as [k IH] using lt_wf_ind. intros x -> Hx.
    apply H; auto. intros y Hy Hk. eapply IH; [|reflexivity|exact Hy]. apply kl_mu; auto. apply HT; auto.
  Qed.
  Lemma rooted_ex key P x : tree key P -> x < n -> exists r, r < n /\ rooted P x r.
  Proof.
    intros HT. revert x. apply (up_ind HT). intros x Hx IH. destruct (HT _ Hx) as (A & B & C).
    destruct (Nat.eq_dec (P x) x) as [E|E].
    - exists x. split; auto. now apply r_here.
    - destruct (IH _ A (C E)) as (r & Hr & R). exists r. split; auto. now apply r_up.
  Qed.
  Lemma same_refl key P x : tree key P -> x < n -> same P x x.
  Proof. intros HT Hx. destruct (rooted_ex HT Hx) as (r & _ & R). exists r. auto. Qed.
  Lemma same_up key P x : tree key P -> x < n -> same P x (P x).
  Proof. intros HT Hx. destruct (rooted_ex HT Hx) as (r & _ & R). exists r. split; auto. now apply rooted_down. Qed.
  Lemma rooted_lt key P x r : tree key P -> x < n -> rooted P x r -> r < n.
  Proof. intros HT Hx R. destruct (rooted_ex HT Hx) as (s & Hs & S). now rewrite (rooted_det R S). Qed.

  (* same parents *)
  Lemma rooted_ext P P' x r : (forall y, P' y = P y) -> rooted P x r -> rooted P' x r.
  Proof. intros H R. induction R as [x E|x r E R IH]; [apply r_here; rewrite H; auto|apply r_up; rewrite H; auto]. Qed.

  (* path splitting *)
  Lemma split_rooted key P P' a b : tree key P -> a < n -> b < n -> P a <> a -> kl key a b -> same P a b ->
    P' a = b -> (forall x, x <> a -> P' x = P x) ->
    forall x, x < n -> forall r, rooted P x r <-> rooted P' x r.
  Proof.
    intros HT Ha Hb Hn Hk Hs E1 E2.
    assert (Hf : forall x, x < n -> forall r, rooted P x r -> rooted P' x r).
    { apply (up_ind HT (Q := fun x => forall r, rooted P x r -> rooted P' x r)). intros x Hx IH r R.
      destruct (Nat.eq_dec x a) as [->|Hxa].
      - destruct Hs as (s & S1 & S2). rewrite (rooted_det R S1) in *. apply rooted_up. rewrite E1. apply IH; auto.
      - destruct (HT _ Hx) as (A & B & C). destruct (Nat.eq_dec (P x) x) as [E|E].
        + inversion R; subst; try congruence. apply r_here. rewrite E2; auto.
        + apply rooted_up. rewrite E2; auto. apply IH; auto. now apply rooted_down. }
    intros x Hx r. split; [now apply Hf|]. intros R. destruct (rooted_ex HT Hx) as (s & _ & S).
    rewrite (rooted_det R (Hf _ Hx _ S)). exact S.
  Qed.

  (* linking the root a under b *)
  Lemma link_rooted key P P' a b s : tree key P -> a < n -> b < n -> P a = a -> kl key a b ->
    rooted P b s -> P' a = b -> (forall x, x <> a -> P' x = P x) ->
    forall x, x < n -> forall r, rooted P x r -> rooted P' x (if r =? a then s else r).
  Proof.
    intros HT Ha Hb Hr Hk Hs E1 E2.
    assert (Hsa : s <> a).
    { intros ->. assert (X : kl key a a \/ a = b); [|destruct X as [X|X]; [exact (kl_neq X eq_refl)|exact (kl_neq Hk X)]].
      clear E1 E2 P'. assert (H : forall x r, rooted P x r -> x < n -> x = r \/ kl key x r).
      { induction 1 as [x E|x r E R IH]; intros Hx; auto. destruct (HT _ Hx) as (A & B & C).
        right. destruct (IH A) as [<-|IH']; auto. eapply kl_trans; eauto. }
      destruct (H _ _ Hs Hb) as [->|H']; auto. left. eapply kl_trans; eauto. }
    apply (up_ind HT (Q := fun x => forall r, rooted P x r -> rooted P' x (if r =? a then s else r))). intros x Hx IH r R.
    destruct (HT _ Hx) as (A & B & C). destruct (Nat.eq_dec x a) as [->|Hxa].
    - assert (r = a) as -> by (eapply rooted_det; [exact R|now apply r_here]). rewrite Nat.eqb_refl.
      apply rooted_up. rewrite E1. specialize (IH b Hb Hk s Hs). destruct (Nat.eqb_spec s a); [congruence|exact IH].
    - destruct (Nat.eq_dec (P x) x) as [E|E].
      + assert (r = x) as -> by (eapply rooted_det; [exact R|now apply r_here]).
        destruct (Nat.eqb_spec x a); [congruence|]. apply r_here. rewrite E2; auto.
      + apply rooted_up. rewrite E2; auto. apply IH; auto. now apply rooted_down.
  Qed.
End Key.
