(* Common list / array helpers used by all model files.  Not tied to a
   particular place of /repo. *)
From Coq Require Export List Arith Bool Lia PeanoNat Permutation.
Export ListNotations.
Global Set Implicit Arguments.

(* array write: A[i] = x for an in-range index; out of range leaves A *)
Fixpoint lset {A} (l : list A) (i : nat) (x : A) : list A :=
  match l, i with
  | [], _ => []
  | _ :: t, 0 => x :: t
  | h :: t, S j => h :: lset t j x
  end.

(* function-arrays *)
Definition fset {A} (f : nat -> A) (i : nat) (x : A) : nat -> A :=
  fun k => if Nat.eqb k i then x else f k.

Lemma fset_same {A} (f : nat -> A) i x : fset f i x i = x.
Proof. unfold fset. now rewrite Nat.eqb_refl. Qed.

Lemma fset_other {A} (f : nat -> A) i x k : k <> i -> fset f i x k = f k.
Proof. unfold fset. intros H. now rewrite (proj2 (Nat.eqb_neq k i) H). Qed.

Lemma length_lset {A} (l : list A) i x : length (lset l i x) = length l.
Proof. revert i; induction l; destruct i; simpl; auto. Qed.

Lemma nth_error_lset_same {A} (l : list A) i x :
  i < length l -> nth_error (lset l i x) i = Some x.
Proof. revert i; induction l; destruct i; simpl; intros; try lia; auto. apply IHl; lia. Qed.

Lemma nth_error_lset_other {A} (l : list A) i j x :
  i <> j -> nth_error (lset l i x) j = nth_error l j.
Proof.
  revert i j; induction l; destruct i, j; simpl; intros; try congruence; auto.
Qed.

Lemma nth_lset_same {A} (l : list A) i x d :
  i < length l -> nth i (lset l i x) d = x.
Proof. revert i; induction l; destruct i; simpl; intros; try lia; auto. apply IHl; lia. Qed.

Lemma nth_lset_other {A} (l : list A) i j x d :
  i <> j -> nth j (lset l i x) d = nth j l d.
Proof.
  revert i j; induction l; destruct i, j; simpl; intros; try congruence; auto.
Qed.

Lemma nth_lset {A} (l : list A) i j x d :
  nth j (lset l i x) d = if (Nat.eqb i j && Nat.ltb i (length l))%bool then x else nth j l d.
Proof.
  destruct (Nat.eqb_spec i j) as [->|H]; simpl.
  - destruct (Nat.ltb_spec j (length l)).
    + now apply nth_lset_same.
    + rewrite !nth_overflow; auto. now rewrite length_lset.
  - now apply nth_lset_other.
Qed.

Lemma In_lset {A} (l : list A) i x y : In y (lset l i x) -> y = x \/ In y l.
Proof.
  revert i; induction l; simpl; intros i; [easy|].
  destruct i; simpl; intros [H|H]; auto. apply IHl in H; tauto.
Qed.

Lemma lset_app_mid {A} (l1 l2 : list A) a x :
  lset (l1 ++ a :: l2) (length l1) x = l1 ++ x :: l2.
Proof. induction l1; simpl; congruence. Qed.

Lemma nth_error_split' {A} (l : list A) i a :
  nth_error l i = Some a -> exists l1 l2, l = l1 ++ a :: l2 /\ length l1 = i.
Proof. apply nth_error_split. Qed.

Lemma firstn_snoc {A} (l : list A) k a :
  nth_error l k = Some a -> firstn (S k) l = firstn k l ++ [a].
Proof.
  revert k; induction l as [|b l IH]; intros k H; destruct k; try discriminate.
  - injection H as ->. reflexivity.
  - change (b :: firstn (S k) l = b :: (firstn k l ++ [a])). now rewrite (IH _ H).
Qed.

Lemma list_ext_nth_error {A} (l1 l2 : list A) :
  (forall i, nth_error l1 i = nth_error l2 i) -> l1 = l2.
Proof.
  revert l2; induction l1; destruct l2; intros H; auto.
  - specialize (H 0); discriminate.
  - specialize (H 0); discriminate.
  - f_equal. specialize (H 0); simpl in H; congruence.
    apply IHl1; intros i; apply (H (S i)).
Qed.

Lemma list_ext_nth {A} (l1 l2 : list A) d :
  length l1 = length l2 -> (forall i, i < length l1 -> nth i l1 d = nth i l2 d) -> l1 = l2.
Proof.
  intros Hl H. apply (nth_ext _ _ d d Hl H).
Qed.
