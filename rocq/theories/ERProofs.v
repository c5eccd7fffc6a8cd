(* Proofs for C95. *)
From Coq Require Import Permutation.
From Verif Require Import Base ERModel ERSpec.
Unset Strict Implicit.

Section ER.
  Variables M O A W : Type.
  Variable f : M -> M -> M.
  Variable id : M.
  Variables inn outn : nat -> list (nat * W).
  Variable n : nat.
  Variable cond : nat -> bool.
  Variable mapf : nat -> nat -> W -> M.
  Variable applyf : nat -> M -> A -> option O * A.
  Hypothesis Hf : monoid f id.
  Lemma reduced_total l r : reduced f id l r -> r = fold_right f id l.
  Proof.
    destruct Hf as (As & Il & Ir). induction 1 as [|x|l1 l2 a b H1 IH1 H2 IH2]; auto; [cbn; now rewrite Ir|]. rewrite IH1, IH2. clear IH1 IH2 H1 H2.
    induction l1 as [|x l1 IH]; cbn [fold_right app]; [apply Il|]. now rewrite <- As, IH.
  Qed.
  Lemma reduced_exists l : reduced f id l (fold_right f id l).
  Proof. induction l as [|x l IH]; cbn [fold_right]; [constructor|]. change (x :: l) with ([x] ++ l). constructor; auto. constructor. Qed.
  Variable ie : bool.
  Notation T := (total f id mapf (neighbors inn outn ie)).
  Lemma nbr_total i r : nbr_reduced f id inn outn mapf ie i r <-> r = T i.
  Proof.
    unfold nbr_reduced, total. destruct (neighbors inn outn ie i) as [|e l]; [reflexivity|]. split.
    - apply reduced_total.
    - intros ->. apply reduced_exists.
  Qed.
  Definition res (v : nat) (d : nat -> A) : option O := if cond v then fst (applyf v (T v) (d v)) else None.
  Definition dat (v : nat) (d : nat -> A) : A := if cond v then snd (applyf v (T v) (d v)) else d v.
  Notation loop := (loop f id inn outn cond mapf applyf).
  Lemma loop_ok output l s s' : loop output ie l s s' -> NoDup l -> (output = true -> forall v, In v l -> v < length (out s)) ->
    length (out s') = length (out s) /\
    (output = true -> forall v, In v l -> nth v (out s') None = res v (data s)) /\ (forall v, ~ In v l -> nth v (out s') None = nth v (out s) None) /\
    (forall v, In v l -> data s' v = dat v (data s)) /\ (forall v, ~ In v l -> data s' v = data s v) /\
    calls s' = calls s ++ map (fun v => (v, T v)) (filter cond l).
  Proof.
    induction 1 as [s|i l s s1 s2 HB HL IH]; intros ND Hl.
    - split; auto. split; [intros _ v []|]. split; auto. split; [intros v []|]. split; auto. cbn. now rewrite app_nil_r.
    - apply NoDup_cons_iff in ND as [Ni ND].
      assert (B : length (out s1) = length (out s) /\ (output = true -> nth i (out s1) None = res i (data s)) /\ (forall v, v <> i -> nth v (out s1) None = nth v (out s) None) /\
        data s1 i = dat i (data s) /\ (forall v, v <> i -> data s1 v = data s v) /\ calls s1 = calls s ++ (if cond i then [(i, T i)] else [])).
      { destruct HB as [C|r C R]; cbn [out data calls].
        - unfold res, dat. rewrite C, app_nil_r. destruct output; [|repeat split; auto; discriminate]. split; [apply length_lset|].
          split; [intros _; apply nth_lset_same, Hl; auto; now left|]. split; [intros v Hv; apply nth_lset_other; auto|]. auto.
        - apply nbr_total in R. subst r. unfold res, dat. rewrite C. split; [destruct output; auto; apply length_lset|]. split; [intros ->; apply nth_lset_same, Hl; auto; now left|].
          split; [intros v Hv; destruct output; auto; apply nth_lset_other; auto|]. unfold fset. rewrite Nat.eqb_refl. split; auto. split; auto.
          intros v Hv. destruct (Nat.eqb_spec v i); congruence. }
      destruct B as (B1 & B2 & B3 & B4 & B5 & B6). destruct IH as (I1 & I2 & I3 & I4 & I5 & I6); auto.
      { intros Ho v Hv. rewrite B1. apply Hl; auto. now right. }
      split; [congruence|]. split; [|split; [|split; [|split]]].
      + intros Ho v [<-|Hv]; [rewrite I3 by auto; now apply B2|]. rewrite I2 by auto. unfold res. rewrite B5; auto. congruence.
      + intros v Hv. rewrite I3 by (intros X; apply Hv; now right). apply B3. intros ->. apply Hv. now left.
      + intros v [<-|Hv]; [rewrite I5 by auto; exact B4|]. rewrite I4 by auto. unfold dat. rewrite B5; auto. congruence.
      + intros v Hv. rewrite I5 by (intros X; apply Hv; now right). apply B5. intros ->. apply Hv. now left.
      + rewrite I6, B6. cbn [filter]. rewrite <- app_assoc. f_equal. now destruct (cond i).
  Qed.
  Lemma loop_exists output l : forall s, exists s', loop output ie l s s'.
  Proof.
    induction l as [|i l IH]; intros s; [exists s; constructor|]. destruct (cond i) eqn:C.
    - destruct (IH {| out := if output then lset (out s) i (fst (applyf i (T i) (data s i))) else out s; data := fset (data s) i (snd (applyf i (T i) (data s i))); calls := calls s ++ [(i, T i)] |}) as (s' & H).
      exists s'. econstructor; [|exact H]. apply b_apply; auto. now apply nbr_total.
    - destruct (IH {| out := if output then lset (out s) i None else out s; data := data s; calls := calls s |}) as (s' & H). exists s'. econstructor; [|exact H]. now apply b_skip.
  Qed.
End ER.
