(* List lemmas shared by the later files. *)
From Verif Require Import Base.

Lemma NoDup_app_iff {A} (l1 l2 : list A) :
  NoDup (l1 ++ l2) <-> NoDup l1 /\ NoDup l2 /\ (forall x, In x l1 -> ~ In x l2).
Proof.
  induction l1 as [|a l1 IH]; simpl.
  - split; [intros H; repeat split; auto; constructor|tauto].
  - split.
    + intros H. inversion H; subst. apply IH in H3 as (H3 & H4 & H5). repeat split; auto.
      * constructor; auto. intros Hi. apply H2, in_app_iff. auto.
      * intros x [->|Hx] Hi; [apply H2, in_app_iff; auto|]. now apply (H5 x).
    + intros (H1 & H2 & H3). inversion H1; subst. constructor.
      * rewrite in_app_iff. intros [Hi|Hi]; auto. now apply (H3 a); auto.
      * apply IH. repeat split; auto.
Qed.

Lemma map_nth_seq {A} (l : list A) d : map (fun i => nth i l d) (seq 0 (length l)) = l.
Proof.
  apply (@list_ext_nth _ _ _ d).
  - now rewrite map_length, seq_length.
  - rewrite map_length, seq_length. intros i Hi.
    rewrite (nth_indep _ d (nth 0 l d)) by now rewrite map_length, seq_length.
    rewrite (map_nth (fun i => nth i l d)). now rewrite seq_nth.
Qed.

Lemma nth_map_seq {A} (f : nat -> A) n i d : i < n -> nth i (map f (seq 0 n)) d = f i.
Proof.
  intros H. rewrite (nth_indep _ d (f 0)) by now rewrite map_length, seq_length.
  now rewrite map_nth, seq_nth.
Qed.

Lemma perm_filter {A} (f : A -> bool) l l' : Permutation l l' -> Permutation (filter f l) (filter f l').
Proof.
  induction 1; simpl; auto.
  - destruct (f x); auto.
  - destruct (f x), (f y); auto. apply perm_swap.
  - now transitivity (filter f l').
Qed.

Lemma filter_all {A} (f : A -> bool) l : (forall x, In x l -> f x = true) -> filter f l = l.
Proof. induction l; simpl; intros H; auto. rewrite H, IHl; auto. Qed.
Lemma filter_none {A} (f : A -> bool) l : (forall x, In x l -> f x = false) -> filter f l = [].
Proof. induction l; simpl; intros H; auto. rewrite H, IHl; auto. Qed.
Lemma filter_ext_in' {A} (f g : A -> bool) l : (forall x, In x l -> f x = g x) -> filter f l = filter g l.
Proof. induction l; simpl; intros H; auto. rewrite H, IHl; auto. Qed.
Lemma filter_len_le {A} (f : A -> bool) l : length (filter f l) <= length l.
Proof. induction l; simpl; auto. destruct (f a); simpl; lia. Qed.
Lemma NoDup_filter' {A} (f : A -> bool) l : NoDup l -> NoDup (filter f l).
Proof. apply NoDup_filter. Qed.

Lemma nth_error_skipn' {A} (l : list A) k i : nth_error (skipn k l) i = nth_error l (k + i).
Proof. revert l; induction k as [|k IH]; intros [|x l]; simpl; auto. now destruct i. Qed.

Lemma nth_error_firstn' {A} (l : list A) k i : i < k -> nth_error (firstn k l) i = nth_error l i.
Proof.
  revert l i; induction k as [|k IH]; intros l i H; [lia|]. destruct l as [|x l]; simpl; auto.
  destruct i; simpl; auto. apply IH. lia.
Qed.

Lemma list_sum_map_0 {A} (f : A -> nat) l : (forall x, In x l -> f x = 0) -> list_sum (map f l) = 0.
Proof. induction l as [|x l IH]; simpl; auto. intros H. rewrite (H x), IH; auto. Qed.

Lemma list_sum_map_pos {A} (f : A -> nat) l : 0 < list_sum (map f l) -> exists x, In x l /\ 0 < f x.
Proof.
  induction l as [|x l IH]; simpl; [lia|]. intros H. destruct (Nat.eq_dec (f x) 0) as [E|E].
  - destruct IH as (y & Hy & Hp); [lia|]. eauto.
  - exists x. split; auto. lia.
Qed.
