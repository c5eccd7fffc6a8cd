(* Roots of parent arrays whose entries do not exceed their index. *)
From Verif Require Import Base UFSpec.

Definition down (P : nat -> nat) : Prop := forall x, P x <= x.

Definition root (P : nat -> nat) (x : nat) : nat := Nat.iter x P x.

Lemma iter_fix (P : nat -> nat) r k : P r = r -> Nat.iter k P r = r.
Proof. intros H; induction k as [|k IHk]; simpl; [reflexivity|]. now rewrite IHk. Qed.

Lemma iter_shift (P : nat -> nat) k x : Nat.iter k P (P x) = P (Nat.iter k P x).
Proof. induction k as [|k IHk]; simpl; [reflexivity|]. now rewrite IHk. Qed.

Lemma iter_le P k x : down P -> Nat.iter k P x <= x.
Proof. intros H; induction k; simpl; auto. pose proof (H (Nat.iter k P x)). lia. Qed.

(* k >= x iterations suffice *)
Lemma iter_enough P : down P -> forall x k, x <= k -> P (Nat.iter k P x) = Nat.iter k P x.
Proof.
  intros H. intros x; induction x as [x IH] using lt_wf_ind; intros k Hk.
  destruct (Nat.eq_dec (P x) x) as [E|E].
  - rewrite iter_fix; auto.
  - pose proof (H x). destruct k as [|k]; [lia|]. simpl. rewrite <- iter_shift.
    apply IH; lia.
Qed.

Lemma iter_stable P x : down P -> forall k, x <= k -> Nat.iter k P x = root P x.
Proof.
  intros H k Hk. unfold root. induction Hk; auto.
  simpl. rewrite IHHk. apply iter_enough; auto.
Qed.

Lemma root_fix P x : down P -> P (root P x) = root P x.
Proof. intros H. apply iter_enough; auto. Qed.

Lemma root_le P x : down P -> root P x <= x.
Proof. intros; now apply iter_le. Qed.

Lemma root_par P x : down P -> root P (P x) = root P x.
Proof.
  intros H. rewrite <- (@iter_stable P (P x) H x) by apply H.
  rewrite iter_shift. fold (root P x). now apply root_fix.
Qed.

Lemma root_self P x : P x = x -> root P x = x.
Proof. intros; now apply iter_fix. Qed.

Lemma root_eq_self P x : down P -> root P x = x -> P x = x.
Proof. intros H E. rewrite <- E at 1. now rewrite root_fix. Qed.

Lemma root_unique P x r k : down P -> P r = r -> Nat.iter k P x = r -> root P x = r.
Proof.
  intros H Hr Hk. rewrite <- (@iter_stable P x H (x + k)) by lia.
  assert (E : forall j, Nat.iter (j + k) P x = Nat.iter j P (Nat.iter k P x)).
  { induction j as [|j IHj]; simpl; [reflexivity|]. now rewrite IHj. }
  now rewrite E, Hk, iter_fix.
Qed.

Lemma root_iter P x k : down P -> root P (Nat.iter k P x) = root P x.
Proof. intros H. induction k; simpl; auto. now rewrite root_par. Qed.

Lemma root_root P x : down P -> root P (root P x) = root P x.
Proof. intros H. apply root_self, root_fix; auto. Qed.

(* updates of one entry, stated pointwise *)
Definition upd1 (P P' : nat -> nat) (i j : nat) : Prop :=
  P' i = j /\ forall x, x <> i -> P' x = P x.

Lemma upd1_down P P' i j : down P -> upd1 P P' i j -> j <= i -> down P'.
Proof.
  intros H [H1 H2] Hj x. destruct (Nat.eq_dec x i) as [->|Hx]; [lia|]. rewrite H2; auto.
Qed.

(* hooking a root below a smaller vertex *)
Lemma root_hook P P' r v : down P -> P r = r -> v < r -> upd1 P P' r v ->
  forall x, root P' x = if root P x =? r then root P v else root P x.
Proof.
  intros H Hr Hv Hu. assert (H' : down P') by (eapply upd1_down; eauto; lia).
  destruct Hu as [Hu1 Hu2].
  intros x; induction x as [x IH] using lt_wf_ind.
  destruct (Nat.eq_dec x r) as [->|Hx].
  - rewrite (root_self P Hr), Nat.eqb_refl.
    rewrite <- (root_par r H'), Hu1. rewrite IH by auto.
    destruct (Nat.eqb_spec (root P v) r); auto.
  - destruct (Nat.eq_dec (P x) x) as [Ex|Ex].
    + rewrite (root_self P Ex). rewrite root_self by (rewrite Hu2; auto).
      destruct (Nat.eqb_spec x r); congruence.
    + rewrite <- (root_par x H'), <- (root_par x H), Hu2 by auto.
      apply IH. pose proof (H x). lia.
Qed.

(* redirecting a non-root to a smaller vertex of its own tree *)
Lemma root_compress P P' i j : down P -> root P j = root P i -> j < i -> upd1 P P' i j ->
  forall x, root P' x = root P x.
Proof.
  intros H Hr Hv Hu. assert (H' : down P') by (eapply upd1_down; eauto; lia).
  destruct Hu as [Hu1 Hu2].
  intros x; induction x as [x IH] using lt_wf_ind.
  destruct (Nat.eq_dec x i) as [->|Hx].
  - rewrite <- (root_par i H'), Hu1. rewrite IH by auto. auto.
  - destruct (Nat.eq_dec (P x) x) as [Ex|Ex].
    + rewrite (root_self P Ex). apply root_self. rewrite Hu2; auto.
    + rewrite <- (root_par x H'), <- (root_par x H), Hu2 by auto.
      apply IH. pose proof (H x). lia.
Qed.

Lemma tree_root_iff P x r : down P -> tree_root P x r <-> root P x = r.
Proof.
  intros H. split.
  - intros [H1 [k Hk]]. eapply root_unique; eauto.
  - intros <-. split; [now apply root_fix|]. exists x. reflexivity.
Qed.

Lemma same_tree_iff P x y : down P -> same_tree P x y <-> root P x = root P y.
Proof.
  intros H. split.
  - intros [r [H1 H2]]. apply tree_root_iff in H1, H2; auto. congruence.
  - intros E. exists (root P y). split; apply tree_root_iff; auto.
Qed.

(* a relation that contains the parent pointers relates every vertex to its root *)
Lemma rel_root (P : nat -> nat) (C : nat -> nat -> Prop) :
  (forall x, C x x) -> (forall x y z, C x y -> C y z -> C x z) ->
  (forall x, C x (P x)) -> forall x, C x (root P x).
Proof.
  intros Hr Ht Hp x. unfold root.
  assert (H : forall k, C x (Nat.iter k P x)); [|apply H].
  induction k as [|k IHk]; simpl; auto. eapply Ht; eauto.
Qed.
