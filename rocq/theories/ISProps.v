(* Theorems for C21 and C22. *)
From Verif Require Import Base ListUtil ISModel ISSpec ISProofs.

(* C21: the sequential intersection of two strictly increasing lists terminates within
   bounds, calls f on exactly the common elements in increasing order, once each, and
   returns their number. *)
Theorem C21_intersect : forall A B, increasing A -> increasing B ->
  exists l, intersect_f A B = Some (length l, l) /\ intersect A B = Some (length l) /\
            increasing l /\ forall x, In x l <-> In x A /\ In x B.
Proof.
  intros A B HA HB. destruct (intersect_f_ok HA HB) as (l & E & Hc & Hl). exists l.
  repeat split; auto; try apply Hl; try tauto. unfold intersect. now rewrite E.
Qed.
Print Assumptions C21_intersect.

(* The loop terminates without an out-of-bounds access for all lists, sorted or not. *)
Theorem C21_always_terminates : forall A B, exists k l, intersect_f A B = Some (k, l) /\ k = length l.
Proof.
  intros A B. unfold intersect_f.
  assert (H : forall fuel i j ans cs, (length A - i) + (length B - j) <= fuel ->
     exists k l, isect_loop A B fuel i j ans cs = Some (k, l) /\ k + length cs = ans + length l).
  { induction fuel as [|fuel IH]; intros i j ans cs Hf; simpl.
    - destruct (Nat.ltb_spec i (length A)), (Nat.ltb_spec j (length B)); simpl; try lia; eauto.
    - destruct (Nat.ltb_spec i (length A)), (Nat.ltb_spec j (length B)); simpl; eauto.
      destruct (nth_error A i) as [a|] eqn:Ea; [|apply nth_error_None in Ea; lia].
      destruct (nth_error B j) as [b|] eqn:Eb; [|apply nth_error_None in Eb; lia].
      destruct (a =? b); [|destruct (a <? b); apply IH; lia].
      destruct (IH (S i) (S j) (S ans) (cs ++ [a])) as (k & l & E & Ek); [lia|]. exists k, l. split; auto.
      rewrite app_length in Ek. simpl in Ek. lia. }
  destruct (H (length A + length B) 0 0 0 []) as (k & l & E & Ek); [lia|]. exists k, l. simpl in Ek. split; auto. lia.
Qed.
Print Assumptions C21_always_terminates.

(* C22: for every sequential threshold and every base >= 2, on strictly increasing lists
   of any sizes, the recursive parallel intersection terminates, returns the same count
   as the sequential one, and in every order in which its parallel halves can run, f is
   called on the same elements, once each. *)
Theorem C22_parallel : forall thresh base A B, 2 <= base -> increasing A -> increasing B ->
  exists k cs l, intersect_f_par thresh base A B = Some (k, cs) /\ intersect_f A B = Some (k, l) /\
    (forall c, happens cs c -> Permutation c l) /\ happens cs l.
Proof.
  intros thresh base A B Hb HA HB. destruct (intersect_f_ok HA HB) as (l & E & Hc).
  destruct (@merge_ok thresh base (2 * (length A + length B) + 2) Hb A B HA HB) as (k & cs & l' & E' & Hc' & Hk & Hp & Hh).
  { destruct (_ <? _); lia. }
  assert (l' = l) by (eapply common_unique; eauto). subst l'. exists k, cs, l. rewrite E. subst k. auto.
Qed.
Print Assumptions C22_parallel.

(* With repeated neighbours (which the hypothesis excludes) the two disagree. *)
Theorem C22_repeated_neighbours_refuted : exists thresh base A B k l k' cs, 2 <= base /\
  intersect_f A B = Some (k, l) /\ intersect_f_par thresh base A B = Some (k', cs) /\ k <> k'.
Proof. exists 0, 4, [5; 5], [5; 7; 9], 1, [5], 2, (Run [5; 5]). repeat split; auto. Qed.
Print Assumptions C22_repeated_neighbours_refuted.

(* With a base below 2 the recursion would not terminate on a single element. *)
Theorem C22_base_one_diverges : forall fuel, merge 0 1 fuel [5] [5; 7] = None.
Proof.
  induction fuel as [|fuel IH]; auto. simpl. rewrite IH. destruct (merge 0 1 fuel [] []) as [[? ?]|]; auto.
Qed.
Print Assumptions C22_base_one_diverges.

Example C21_example : increasing [1; 4; 6; 9] /\ increasing [0; 4; 5; 9; 12] /\
  intersect_f [1; 4; 6; 9] [0; 4; 5; 9; 12] = Some (2, [4; 9]).
Proof. repeat split; repeat constructor. Qed.
Example C22_example : (* swap, split and both base cases are taken *)
  intersect_f_par 4 2 [0; 4; 5; 9; 12; 13] [1; 4; 6; 9; 13]
  = Some (3, ParDo (ParDo (Run []) (Run [4])) (ParDo (Run []) (ParDo (Run [9]) (Run [13])))).
Proof. vm_compute. reflexivity. Qed.
