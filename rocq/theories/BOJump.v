(* Proofs for C64: pointer jumping in an arbitrary forest of parent pointers. *)
From Coq Require Import ZArith Permutation.
From Verif Require Import Base GBModel UFSpec BOModel.
Local Open Scope nat_scope.

Lemma memb_In v l : memb v l = true <-> In v l.
Proof. unfold memb. rewrite existsb_exists. split; [intros (x & Hx & E); apply Nat.eqb_eq in E; now subst|intros H; exists v; split; auto; apply Nat.eqb_refl]. Qed.
Lemma memb_not v l : memb v l = false <-> ~ In v l.
Proof. rewrite <- memb_In. destruct (memb v l); intuition congruence. Qed.

Lemma iter_fix (P : nat -> nat) r k : P r = r -> Nat.iter k P r = r.
Proof. intros H. induction k; simpl; congruence. Qed.
Lemma iter_add (P : nat -> nat) j k x : Nat.iter (j + k) P x = Nat.iter j P (Nat.iter k P x).
Proof. induction j; simpl; congruence. Qed.
Lemma iter_S (P : nat -> nat) k x : Nat.iter (S k) P x = Nat.iter k P (P x).
Proof. induction k; simpl in *; congruence. Qed.
Lemma tree_root_step P x r : tree_root P (P x) r <-> tree_root P x r.
Proof.
  split; intros [H (k & E)]; split; auto.
  - exists (S k). now rewrite iter_S.
  - destruct k as [|k]; [simpl in E; subst; exists 0; simpl; congruence|]. exists k. now rewrite <- iter_S.
Qed.
Lemma tree_root_det P x r r' : tree_root P x r -> tree_root P x r' -> r = r'.
Proof.
  intros [H (k & E)] [H' (k' & E')]. rewrite <- (@iter_fix P r k' H), <- E, <- iter_add, Nat.add_comm, iter_add, E'. now apply iter_fix.
Qed.
Lemma tree_root_self P r : P r = r -> tree_root P r r.
Proof. intros H. split; auto. now exists 0. Qed.
(* no cycle but at the root *)
Lemma periodic P x r j : tree_root P x r -> Nat.iter (S j) P x = x -> x = r.
Proof.
  intros [H (k & E)] Hj. assert (X : forall a, Nat.iter (a * S j) P x = x) by (induction a; cbn [Nat.mul]; auto; rewrite iter_add, IHa; auto).
  specialize (X k). replace (k * S j) with (k * j + k) in X by lia. rewrite iter_add, E, iter_fix in X; auto.
Qed.

Section Jump.
  Variable P1 : nat -> nat.
  Variable rt : nat -> nat.
  Hypothesis Hrt : forall x, tree_root P1 x (rt x).
  Variable vs : list nat.
  (* every pointer is to a proper ancestor, or to the root itself *)
  Definition above (x y : nat) : Prop := exists j, y = Nat.iter (S j) P1 x.
  Lemma above_trans x y z : above x y -> above y z -> above x z.
  Proof. intros (j & ->) (k & ->). exists (k + S j). rewrite <- iter_add. reflexivity. Qed.
  Definition jinv (s : (nat -> jpc) * (nat -> nat)) : Prop :=
    (forall x, above x (snd s x)) /\ (forall x, ~ In x vs -> snd s x = P1 x) /\
    (forall v b, fst s v = JWrite b -> above v b) /\
    (forall v, In v vs -> fst s v = JDone -> snd s v = rt v).
  Lemma above_root x : above x x -> x = rt x.
  Proof. intros (j & E). eapply periodic; [apply Hrt|]. now rewrite <- E. Qed.
  Lemma root_above x y : above x y -> rt y = rt x.
  Proof.
    intros (j & ->). destruct (Hrt x) as [H (k & E)]. assert (tree_root P1 (Nat.iter (S j) P1 x) (rt x)); [|eapply tree_root_det; eauto].
    split; auto. exists k. now rewrite <- iter_add, Nat.add_comm, iter_add, E, iter_fix.
  Qed.
  Lemma above_rt x y : above (rt x) y -> y = rt x.
  Proof. intros (j & ->). apply iter_fix, Hrt. Qed.
  Lemma jrun_inv s s' : jrun vs s s' -> jinv s -> jinv s'.
  Proof.
    induction 1 as [s|ps P v pc P' s Hv Hs Hr IH]; auto. intros (I1 & I2 & I3 & I4). apply IH. clear IH Hr. simpl in *.
    inversion Hs; subst; (split; [|split; [|split]]); simpl.
    - apply I1.
    - apply I2.
    - intros w b E. destruct (Nat.eq_dec w v) as [->|Hne]; [rewrite fset_same in E; discriminate|]. rewrite fset_other in E; auto.
    - intros w Hw E. destruct (Nat.eq_dec w v) as [->|Hne]; [|rewrite fset_other in E; auto].
      pose proof (I1 v) as A. assert (A2 : above (P' v) (P' v)) by (match goal with H : P' v = P' (P' v) |- _ => rewrite H at 2 end; apply I1). apply above_root in A2. rewrite A2. now apply root_above.
    - apply I1.
    - apply I2.
    - intros w b E. destruct (Nat.eq_dec w v) as [->|Hne]; [rewrite fset_same in E; discriminate|]. rewrite fset_other in E; auto.
    - intros w Hw E. destruct (Nat.eq_dec w v) as [->|Hne]; [rewrite fset_same in E; discriminate|]. rewrite fset_other in E; auto.
    - apply I1.
    - apply I2.
    - intros w b E. destruct (Nat.eq_dec w v) as [->|Hne]; [|rewrite fset_other in E; auto]. rewrite fset_same in E. injection E as <-. eapply above_trans; apply I1.
    - intros w Hw E. destruct (Nat.eq_dec w v) as [->|Hne]; [rewrite fset_same in E; discriminate|]. rewrite fset_other in E; auto.
    - intros x. destruct (Nat.eq_dec x v) as [->|Hne]; [rewrite fset_same|rewrite fset_other; auto]. now apply I3.
    - intros x Hx. rewrite fset_other; auto. congruence.
    - intros w b' E. destruct (Nat.eq_dec w v) as [->|Hne]; [rewrite fset_same in E; discriminate|]. rewrite fset_other in E; auto.
    - intros w Hw E. destruct (Nat.eq_dec w v) as [->|Hne]; [rewrite fset_same in E; discriminate|]. rewrite fset_other in E by auto. rewrite fset_other; auto.
  Qed.
  Theorem jump_ok P' : jump vs P1 P' -> forall x, P' x = if memb x vs then rt x else P1 x.
  Proof.
    intros (ps & Hr & Hd) x. apply jrun_inv in Hr as (I1 & I2 & I3 & I4).
    - simpl in *. destruct (memb x vs) eqn:E; [apply memb_In in E; auto|apply memb_not in E; auto].
    - split; [intros y; now exists 0|]. split; auto. split; [intros v b E; discriminate|intros v _ E; discriminate].
  Qed.
  (* the tasks one after the other come to an end *)
  Lemma jrun_trans s1 s2 s3 : jrun vs s1 s2 -> jrun vs s2 s3 -> jrun vs s1 s3.
  Proof. induction 1; auto. intros H'. econstructor; eauto. Qed.
  Lemma jump_one v : In v vs -> forall k ps P, ps v = JTest -> (forall x, above x (P x)) -> (exists i, i <= k /\ Nat.iter i P1 (P v) = rt v) ->
    exists ps' P', jrun vs (ps, P) (ps', P') /\ ps' v = JDone /\ (forall w, w <> v -> ps' w = ps w) /\ (forall x, above x (P' x)).
  Proof.
    intros Hv. induction k as [|k IH]; intros ps P Hp HP Hk.
    - destruct Hk as (i & Hi & E). replace i with 0 in E by lia. simpl in E.
      exists (fset ps v JDone), P. split; [|split; [apply fset_same|split; auto; intros w Hw; now apply fset_other]].
      eapply jr_step; [exact Hv| |apply jr_nil]. rewrite Hp. constructor. rewrite E. symmetry. apply above_rt, HP.
    - destruct (Nat.eq_dec (P v) (P (P v))) as [E|E].
      + exists (fset ps v JDone), P. split; [|split; [apply fset_same|split; auto; intros w Hw; now apply fset_other]].
        eapply jr_step; [exact Hv| |apply jr_nil]. rewrite Hp. now constructor.
      + destruct (IH (fset (fset (fset ps v JMove) v (JWrite (P (P v)))) v JTest) (fset P v (P (P v)))) as (ps' & P' & H1 & H2 & H3 & H4).
        * apply fset_same.
        * intros x. destruct (Nat.eq_dec x v) as [->|Hne]; [rewrite fset_same; eapply above_trans; apply HP|rewrite fset_other; auto].
        * rewrite fset_same. destruct Hk as (i & Hi & Ei). destruct (HP (P v)) as (j & Ej). exists (i - S j).
          split; [lia|]. rewrite Ej, <- iter_add. destruct (le_lt_dec (S j) i) as [Hl|Hl]; [replace (i - S j + S j) with i by lia; auto|].
          replace (i - S j + S j) with (S j - i + i) by lia. rewrite iter_add, Ei. apply iter_fix, Hrt.
        * exists ps', P'. split; [|split; [auto|split; auto]].
          -- eapply jr_step; [exact Hv|rewrite Hp; now apply j_go|]. eapply jr_step; [exact Hv|rewrite fset_same; apply j_move|].
             eapply jr_step; [exact Hv|rewrite fset_same; apply j_write|]. exact H1.
          -- intros w Hw. rewrite H3; auto. now rewrite !fset_other.
  Qed.
  Theorem jump_runs : exists P', jump vs P1 P'.
  Proof.
    assert (X : forall l, incl l vs -> NoDup l -> exists ps' P', jrun vs (fun _ => JTest, P1) (ps', P') /\ (forall v, In v l -> ps' v = JDone) /\
      (forall v, ~ In v l -> ps' v = JTest) /\ (forall x, above x (P' x))).
    { induction l as [|v l IH]; intros Hl HN; [exists (fun _ => JTest), P1; split; [apply jr_nil|split; [intros v []|split; auto; intros x; now exists 0]]|].
      destruct IH as (ps & P & H1 & H2 & H3 & H4); [intros x Hx; apply Hl; now right|now inversion HN|].
      assert (Hvl : ~ In v l) by now inversion HN.
      destruct (Hrt (P v)) as [Hf (k & Ek)]. rewrite (root_above (H4 v)) in Ek.
      destruct (@jump_one v (Hl v (or_introl eq_refl)) k ps P (H3 v Hvl) H4) as (ps' & P' & J1 & J2 & J3 & J4); [eauto|].
      exists ps', P'. split; [eapply jrun_trans; eauto|]. split; [|split; auto].
      - intros w [<-|Hw]; auto. rewrite J3; auto. intros ->. contradiction.
      - intros w Hw. simpl in Hw. rewrite J3; [apply H3; tauto|intros ->; tauto]. }
    destruct (X (nodup Nat.eq_dec vs)) as (ps' & P' & H1 & H2 & _); [intros x; apply nodup_In|apply NoDup_nodup|].
    exists P', ps'. split; auto. intros v Hv. apply H2. now apply nodup_In.
  Qed.
End Jump.
