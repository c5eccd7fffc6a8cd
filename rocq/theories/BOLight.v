(* Proofs for C64: light edges.  A batch B of edges, given by position, is added to edges D whose
   components are those of a forest T0 inside D. *)
From Coq Require Import ZArith Permutation Sorted.
From Verif Require Import Base ListUtil GBModel UFSpec FRSpec FRProofs.
Local Open Scope nat_scope.

Lemma ends_In (T : list (edge Z)) a b : In (a, b) (ends T) <-> exists e, In e T /\ src e = a /\ dst e = b.
Proof.
  unfold ends. rewrite in_map_iff. split.
  - intros (e & He & Hi). injection He as <- <-. eauto.
  - intros (e & Hi & <- & <-). eauto.
Qed.
Lemma conn_ends_incl (T T' : list (edge Z)) x y : incl T T' -> connected (ends T) x y -> connected (ends T') x y.
Proof. intros H. apply conn_incl. intros [a b] He. rewrite ends_In in *. destruct He as (e & He & ?). exists e. split; auto. Qed.
Lemma conn_ends_closed (T T' : list (edge Z)) x y : (forall e, In e T -> connected (ends T') (src e) (dst e)) -> connected (ends T) x y -> connected (ends T') x y.
Proof. intros H. apply conn_closed. intros a b He. rewrite ends_In in He. destruct He as (e & He & <- & <-). auto. Qed.
Lemma conn_edge (T : list (edge Z)) e : In e T -> connected (ends T) (src e) (dst e).
Proof. intros H. apply rst_step, ends_In. eauto. Qed.
(* a set of vertices no edge leaves *)
Lemma conn_inside (T : list (edge Z)) (S : nat -> Prop) : (forall e, In e T -> S (src e) <-> S (dst e)) ->
  forall x y, connected (ends T) x y -> S x <-> S y.
Proof. intros H x y C. induction C as [x y He| |x y _ IH|x z y _ IH1 _ IH2]; try tauto. apply ends_In in He as (e & He & <- & <-). auto. Qed.

Lemma forest_perm {W} (T T' : list (edge W)) : Permutation T T' -> forest T -> forest T'.
Proof.
  intros Hp HT l1 e l2 E Hc. assert (In e T) by (apply (Permutation_in e (Permutation_sym Hp)); rewrite E; apply in_elt).
  apply in_split in H as (k1 & k2 & Ek). apply (HT k1 e k2 Ek). eapply conn_incl; [|exact Hc]. intros x Hx.
  assert (P' : Permutation (l1 ++ l2) (k1 ++ k2)). { rewrite E, Ek in Hp. apply Permutation_sym in Hp. eapply Permutation_app_inv; exact Hp. }
  unfold ends in *. apply in_map_iff in Hx as (f & <- & Hf). apply in_map_iff. exists f. split; auto. now apply (Permutation_in f P').
Qed.

Section Batch.
  Variable ed : nat -> edge Z.          (* the edges of the batch by position *)
  Variable m : nat.
  Variable M : list nat.                (* the positions chosen *)
  Variable D T0 : list (edge Z).
  Definition klt (i j : nat) : Prop := (wgh (ed i) < wgh (ed j))%Z \/ (wgh (ed i) = wgh (ed j) /\ i < j).
  Definition kltb (i j : nat) : bool := ((wgh (ed i) <? wgh (ed j))%Z || ((wgh (ed i) =? wgh (ed j))%Z && (i <? j)))%bool.
  Lemma kltb_spec i j : kltb i j = true <-> klt i j.
  Proof. unfold kltb, klt. rewrite Bool.orb_true_iff, Bool.andb_true_iff, Z.ltb_lt, Z.eqb_eq, Nat.ltb_lt. tauto. Qed.
  Lemma klt_trans i j k : klt i j -> klt j k -> klt i k.
  Proof. unfold klt. lia. Qed.
  Lemma klt_total i j : klt i j \/ i = j \/ klt j i.
  Proof. unfold klt. lia. Qed.
  Lemma klt_irr i : ~ klt i i.
  Proof. unfold klt. lia. Qed.
  (* the edges of the batch before i *)
  Definition smaller (i : nat) : list (edge Z) := map ed (filter (fun j => kltb j i) (seq 0 m)).
  Lemma smaller_In i e : In e (smaller i) <-> exists j, j < m /\ klt j i /\ e = ed j.
  Proof.
    unfold smaller. rewrite in_map_iff. split.
    - intros (j & <- & Hj). apply filter_In in Hj as [Hj Hk]. apply in_seq in Hj. apply kltb_spec in Hk. exists j. repeat split; auto. lia.
    - intros (j & Hj & Hk & ->). exists j. split; auto. apply filter_In. split; [apply in_seq; lia|now apply kltb_spec].
  Qed.
  Hypothesis HM : forall i, In i M -> i < m.
  Hypothesis Hnd : NoDup M.
  Hypothesis HT0 : incl T0 D.
  Hypothesis light : forall i, In i M -> ~ connected (ends (D ++ smaller i)) (src (ed i)) (dst (ed i)).
  Hypothesis spans : forall i, i < m -> connected (ends (T0 ++ map ed M)) (src (ed i)) (dst (ed i)).

  Lemma sortedM (l : list nat) : NoDup l -> exists o, Permutation o l /\ StronglySorted klt o.
  Proof.
    induction l as [|x l IH]; intros HN; [exists []; split; constructor|]. inversion_clear HN. destruct IH as (o & Hp & Hs); auto.
    assert (Hx : ~ In x o) by (intros Hi; apply (Permutation_in _ Hp) in Hi; contradiction).
    assert (Y : forall o, StronglySorted klt o -> ~ In x o -> exists o', Permutation o' (x :: o) /\ StronglySorted klt o').
    { clear. induction 1 as [|y o Hs IH Hf]; intros Hx; [exists [x]; split; auto; repeat constructor|]. destruct (klt_total x y) as [H|[H|H]].
      - exists (x :: y :: o). split; auto. constructor; [constructor; auto|]. constructor; auto. eapply Forall_impl; [|exact Hf]. intros a Ha. eapply klt_trans; eauto.
      - subst. exfalso. apply Hx. now left.
      - destruct IH as (o' & Hp & Hs'); [intros Hi; apply Hx; now right|]. exists (y :: o'). split; [rewrite Hp; constructor|]. constructor; auto. rewrite Forall_forall in *. intros z Hz.
        apply (Permutation_in _ Hp) in Hz as [<-|Hz]; auto. }
    destruct (Y o Hs Hx) as (o' & Hp' & Hs'). exists o'. split; auto. rewrite Hp'. now constructor.
  Qed.

  (* the chosen edges that are not after i *)
  Definition upto (i : nat) : list nat := filter (fun j => negb (kltb i j)) M.
  Lemma upto_In i j : In j (upto i) <-> In j M /\ (klt j i \/ j = i).
  Proof.
    unfold upto. rewrite filter_In, Bool.negb_true_iff. split; intros [H1 H2]; split; auto.
    - destruct (klt_total i j) as [H|[H|H]]; auto. apply kltb_spec in H. congruence.
    - destruct (kltb i j) eqn:E; auto. apply kltb_spec in E. destruct H2 as [H2| ->]; [exfalso; apply (@klt_irr i); eapply klt_trans; eauto|now apply klt_irr in E].
  Qed.
  (* later chosen edges cannot help to connect i *)
  Lemma later i : i < m -> forall F, StronglySorted klt F -> (forall f, In f F -> In f M /\ klt i f) ->
    connected (ends (T0 ++ map ed (upto i) ++ map ed F)) (src (ed i)) (dst (ed i)) -> connected (ends (T0 ++ map ed (upto i))) (src (ed i)) (dst (ed i)).
  Proof.
    intros Hi F. induction F as [|f F IH] using rev_ind; intros Hs HF Hc; [now rewrite app_nil_r in Hc|].
    assert (Hs' : StronglySorted klt F /\ forall g, In g F -> klt g f).
    { clear - Hs. induction F as [|g F IH]; [split; [constructor|intros _ []]|]. simpl in Hs. inversion_clear Hs. destruct IH as [H1 H2]; auto.
      split; [constructor; auto; apply Forall_app in H0; apply H0|]. intros x [<-|Hx]; auto. apply Forall_app in H0 as [_ H0]. now inversion_clear H0. }
    destruct Hs' as [Hs' Hlt]. set (B := T0 ++ map ed (upto i) ++ map ed F).
    destruct (conn_dec (ends B) (src (ed i)) (dst (ed i))) as [H|H]; [apply IH; auto; intros g Hg; apply HF, in_or_app; auto|].
    exfalso. destruct (HF f ltac:(apply in_or_app; right; now left)) as [HfM Hif].
    assert (Hc' : connected ((src (ed f), dst (ed f)) :: ends B) (src (ed i)) (dst (ed i))).
    { eapply conn_incl; [|exact Hc]. unfold B, ends. rewrite !map_app. simpl. intros x. simpl. rewrite !in_app_iff. simpl. tauto. }
    pose proof (exchange Hc' H) as X. apply (@light f HfM). eapply conn_closed; [|exact X]. intros a b [He|He].
    - injection He as <- <-. apply conn_edge, in_or_app. right. apply smaller_In. eauto.
    - apply ends_In in He as (e & He & <- & <-). apply conn_edge. unfold B in He. rewrite !in_app_iff in *. destruct He as [He|[He|He]]; auto; right; apply in_map_iff in He as (j & <- & Hj); apply smaller_In.
      + apply upto_In in Hj as [Hj1 Hj2]. exists j. split; auto. split; auto. destruct Hj2 as [Hj2| ->]; auto. eapply klt_trans; eauto.
      + exists j. split; [apply HM, HF, in_or_app; auto|]. auto.
  Qed.
  Lemma batch_bottleneck i : i < m -> connected (ends (T0 ++ map ed (upto i))) (src (ed i)) (dst (ed i)).
  Proof.
    intros Hi. destruct (@sortedM (filter (fun j => kltb i j) M) (NoDup_filter _ Hnd)) as (F & Hp & Hs).
    apply later with (F := F); auto.
    - intros f Hf. apply (Permutation_in _ Hp), filter_In in Hf as [H1 H2]. split; auto. now apply kltb_spec.
    - eapply conn_ends_incl; [|apply spans; auto]. intros e He. rewrite !in_app_iff in *. destruct He as [He|He]; auto. right. apply in_map_iff in He as (j & <- & Hj).
      destruct (kltb i j) eqn:E; [right|left]; apply in_map; [apply (Permutation_in _ (Permutation_sym Hp))|]; apply filter_In; split; auto. now rewrite E.
  Qed.
  Lemma batch_forest : forest T0 -> forest (T0 ++ map ed M).
  Proof.
    intros HF. destruct (@sortedM M Hnd) as (o & Hp & Hs). apply (@forest_perm Z (T0 ++ map ed o)); [apply Permutation_app_head, Permutation_map, Hp|].
    assert (Ho : forall j, In j o -> In j M) by (intros j; apply (Permutation_in _ Hp)). clear Hp.
    induction o as [|f F IH] using rev_ind; [now rewrite app_nil_r|].
    assert (Hs' : StronglySorted klt F /\ forall g, In g F -> klt g f).
    { clear - Hs. induction F as [|g F IH]; [split; [constructor|intros _ []]|]. simpl in Hs. inversion_clear Hs. destruct IH as [H1 H2]; auto.
      split; [constructor; auto; apply Forall_app in H0; apply H0|]. intros x [<-|Hx]; auto. apply Forall_app in H0 as [_ H0]. now inversion_clear H0. }
    destruct Hs' as [Hs' Hlt]. rewrite map_app, app_assoc. simpl. apply forest_snoc; [apply IH; auto; intros j Hj; apply Ho, in_or_app; auto|].
    intros Hc. apply (@light f); [apply Ho, in_or_app; right; now left|]. eapply conn_ends_incl; [|exact Hc]. intros e He. rewrite !in_app_iff in *. destruct He as [He|He]; auto. right.
    apply in_map_iff in He as (j & <- & Hj). apply smaller_In. exists j. split; [apply HM, Ho, in_or_app; auto|auto].
  Qed.
End Batch.
