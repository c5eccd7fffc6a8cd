(* Proofs for C59: the forward and the backward loop. *)
From Coq Require Import ZArith QArith Qcanon Permutation.
From Verif Require Import Base ListUtil BKSpec BKProofs FASpec FAProofs EMSpec BCModel BCSpec BCWalks BCProofs BCLoops.
Local Open Scope nat_scope.

Lemma mem_false v l : mem v l = false <-> ~ In v l.
Proof. rewrite <- mem_In. destruct (mem v l); split; congruence. Qed.
Lemma filter_mem_at {F : list nat} {b : nat -> bool} l : (forall s, In s F <-> b s = true) -> filter (fun s => mem s F) l = filter b l.
Proof.
  intros H. apply filter_ext_in'. intros s _. destruct (mem s F) eqn:E.
  - apply mem_In, H in E. auto.
  - apply mem_false in E. destruct (b s) eqn:Eb; auto. exfalso. apply E, H, Eb.
Qed.

Section Loops.
  Variable n : nat.
  Variable outn inn : nat -> list nat.
  Hypothesis HR : reversed n outn inn.
  Variable src : nat.
  Hypothesis Hsrc : src < n.
  Notation lev := (level n outn src).
  Notation sig := (sig n outn src).
  Notation dep := (dep n outn src).
  Notation at_level := (at_level n outn src).

  Lemma at_level_iff k v : at_level k v = true <-> lev v = Some k.
  Proof. unfold BCProofs.at_level. destruct (lev v); [rewrite Nat.eqb_eq|]; split; congruence. Qed.

  (* l is the list of the vertices at level k *)
  Definition is_level (k : nat) (l : list nat) : Prop := NoDup l /\ forall v, In v l <-> lev v = Some k.
  Definition upto (k : nat) (V : nat -> bool) : Prop := forall v, V v = true <-> exists j, lev v = Some j /\ j <= k.
  Definition from (k : nat) (V : nat -> bool) : Prop := forall v, V v = true <-> exists j, lev v = Some j /\ k <= j.
  Definition paths (V : nat -> bool) (P : nat -> num) : Prop :=
    exists f, (forall v, P v = Some (f v)) /\ (forall v, (0 <= f v)%Qc) /\ forall v, v < n -> f v = if V v then qc (sig v) else 0%Qc.
  Definition deps (k : nat) (D : nat -> num) : Prop :=
    exists f, (forall v, D v = Some (f v)) /\ (forall v, (0 <= f v)%Qc) /\
      forall v j, lev v = Some j -> f v = if k <=? j then dep v else 0%Qc.

  Lemma upto_start : upto 0 (fset (fun _ => false) src true).
  Proof.
    intros v. unfold fset. destruct (Nat.eqb_spec v src) as [->|Hne].
    - split; auto. intros _. exists 0. split; auto. apply (lev_src HR); auto.
    - split; [discriminate|]. intros (j & Hj & Hle). replace j with 0 in Hj by lia. now apply (lev_0 HR) in Hj.
  Qed.
  Lemma level_start : is_level 0 [src].
  Proof.
    split; [repeat constructor; auto|]. intros v. split; [intros [<-|[]]; now apply (lev_src HR)|]. intros H. apply (lev_0 HR) in H; auto. subst. now left.
  Qed.
  Lemma paths_start : paths (fset (fun _ => false) src true) (fset (fun _ => Some 0%Qc) src (Some 1%Qc)).
  Proof.
    exists (fset (fun _ => 0%Qc) src 1%Qc). split; [|split].
    - intros v. unfold fset. now destruct (_ =? _).
    - intros v. unfold fset. destruct (_ =? _); [|apply Qcle_refl]. discriminate.
    - intros v _. unfold fset. destruct (Nat.eqb_spec v src) as [->|]; auto. rewrite (sig_src HR); auto.
  Qed.
  Lemma next_level k V F d : upto k V -> is_level k F ->
    (lev d = Some (S k) <-> d < n /\ V d = false /\ exists s, In s F /\ In s (inn d)).
  Proof.
    intros HV [_ HF]. split.
    - intros H. split; [eapply (lev_lt HR Hsrc); eauto|]. split.
      + destruct (V d) eqn:E; auto. apply HV in E as (j & Ej & Hj). rewrite H in Ej. injection Ej as <-. lia.
      + destruct (lev_prev HR Hsrc _ H) as (u & Hu & Hin). exists u. split; [now apply HF|].
        apply (edge_rev HR); auto; eapply (lev_lt HR Hsrc); eauto.
    - intros (Hd & Hv & s & Hs & Hin). apply HF in Hs. destruct (in_edge HR _ Hd Hin) as [_ He]. destruct (lev_edge HR Hsrc _ _ He Hs) as (j & Ej & Hj).
      destruct (Nat.eq_dec j (S k)) as [->|]; auto. exfalso. assert (V d = true) by (apply HV; exists j; split; auto; lia). congruence.
  Qed.
  Lemma upto_next k V l : upto k V -> is_level (S k) l -> upto (S k) (marked V l).
  Proof.
    intros HV [_ HL] v. unfold marked. rewrite Bool.orb_true_iff, (HV v), mem_In, HL. split.
    - intros [(j & Ej & Hj)|E]; eauto.
    - intros (j & Ej & Hj). destruct (Nat.eq_dec j (S k)) as [->|]; auto. left. exists j. split; auto. lia.
  Qed.
  Lemma paths_next k V F l f P' f' : upto k V -> is_level k F -> is_level (S k) l ->
    (forall v, v < n -> f v = if V v then qc (sig v) else 0%Qc) ->
    (forall v, P' v = Some (f' v)) -> (forall v, (0 <= f' v)%Qc) ->
    (forall d, d < n -> V d = true -> f' d = f d) ->
    (forall d, d < n -> V d = false -> f' d = qsum (map f (filter (fun s => mem s F) (inn d)))) -> paths (marked V l) P'.
  Proof.
    intros HV [NF HF] HL Hf HP Hnn H1 H2. exists f'. split; auto. split; auto. intros v Hv. unfold marked. destruct (V v) eqn:E; simpl.
    - rewrite H1, Hf, E; auto.
    - rewrite H2 by auto. destruct (mem v l) eqn:Em.
      + apply mem_In, HL in Em. rewrite (sig_step HR Hsrc _ Em). rewrite (filter_mem_at (b := at_level k)) by (intros s; rewrite HF, at_level_iff; tauto).
        f_equal. apply map_ext_in. intros s Hs. apply filter_In in Hs as [Hs Hk]. apply at_level_iff in Hk. rewrite (Hf s) by (eapply (lev_lt HR Hsrc); eauto).
        assert (V s = true) as -> by (apply HV; eauto). auto.
      + apply mem_false in Em. rewrite filter_none; auto. intros s Hs. apply mem_false. intros Hin. apply Em, HL. apply (@next_level k V F v HV (conj NF HF)). eauto.
  Qed.
  (* the hypotheses of a forward traversal *)
  Lemma forward_zero k V F f : upto k V -> is_level k F -> (forall v, v < n -> f v = if V v then qc (sig v) else 0%Qc) ->
    forall d, d < n -> True -> V d = false -> f d = 0%Qc /\ forall s, In s (inn d) -> In s F \/ f s = 0%Qc.
  Proof.
    intros HV [NF HF] Hf d Hd _ Hv. split; [now rewrite Hf, Hv|]. intros s Hs. destruct (in_edge HR _ Hd Hs) as [Hsn He]. rewrite Hf by auto.
    destruct (V s) eqn:E; auto. left. apply HV in E as (j & Ej & Hj). apply HF. destruct (lev_edge HR Hsrc _ _ He Ej) as (i & Ei & Hi).
    destruct (Nat.eq_dec j k) as [->|]; auto. exfalso. assert (V d = true) by (apply HV; exists i; split; auto; lia). congruence.
  Qed.
  (* after the last round every vertex has its number of paths *)
  Lemma paths_done k V P : upto k V -> is_level k [] -> paths V P -> forall v, v < n -> P v = Some (qc (sig v)).
  Proof.
    intros HV [_ HF] (f & HP & _ & Hf) v Hv. rewrite HP, Hf by auto. destruct (V v) eqn:E; auto. f_equal. destruct (lev v) as [j|] eqn:El.
    - exfalso. destruct (Nat.le_gt_cases j k).
      + assert (V v = true) by (apply HV; eauto). congruence.
      + destruct (lev_down HR Hsrc _ El (k := k)) as [u Hu]; [lia|]. now apply HF in Hu.
    - rewrite (@sig_none n outn src v El). reflexivity.
  Qed.

  (* backward *)
  Lemma from_start k l : is_level (S k) [] -> is_level k l -> from k (marked (fun _ => false) l).
  Proof.
    intros [_ HE] [_ HL] v. unfold marked. simpl. rewrite mem_In, HL. split; eauto. intros (j & Ej & Hj). destruct (Nat.eq_dec j k) as [->|]; auto.
    exfalso. destruct (lev_down HR Hsrc _ Ej (k := S k)) as [u Hu]; [lia|]. now apply HE in Hu.
  Qed.
  Lemma from_next k V l : from (S k) V -> is_level k l -> from k (marked V l).
  Proof.
    intros HV [_ HL] v. unfold marked. rewrite Bool.orb_true_iff, (HV v), mem_In, HL. split.
    - intros [(j & Ej & Hj)|E]; eauto. exists j. split; auto. lia.
    - intros (j & Ej & Hj). destruct (Nat.eq_dec j k) as [->|]; auto. left. exists j. split; auto. lia.
  Qed.
  Lemma inv_sig P v k : lev v = Some k -> P v = Some (qc (sig v)) -> inverted P v = Some (/ qc (sig v))%Qc.
  Proof.
    intros El HP. unfold inverted. rewrite HP. unfold ndiv, is0. pose proof (Qc_neq (qc_pos (sig_pos HR Hsrc _ El))). destruct (Qc_eq_dec _ _); [contradiction|].
    simpl. f_equal. unfold Qcdiv. ring.
  Qed.
  (* adding 1 / sigma on a level *)
  Lemma deps_next P k l D' f' : (forall v, v < n -> P v = Some (qc (sig v))) -> is_level k l ->
    (forall v, D' v = Some (f' v)) -> (forall v, (0 <= f' v)%Qc) ->
    (forall v j, lev v = Some j -> k < j -> f' v = dep v) -> (forall v j, lev v = Some j -> j < k -> f' v = 0%Qc) ->
    (forall v, lev v = Some k -> f' v = qsum (map dep (filter (at_level (S k)) (outn v)))) ->
    deps k (finish (inverted P) D' l).
  Proof.
    intros HP [NL HL] HD Hnn H1 H2 H3. exists (fun v => if mem v l then (f' v + / qc (sig v))%Qc else f' v). split; [|split].
    - intros v. unfold finish. destruct (mem v l) eqn:E; auto. apply mem_In, HL in E. rewrite (@inv_sig P v k E) by (apply HP; eapply (lev_lt HR Hsrc); eauto). rewrite HD. reflexivity.
    - intros v. destruct (mem v l) eqn:E; auto. apply mem_In, HL in E. apply Qc_nn_add; auto. apply Qclt_le_weak, Qcinv_pos, qc_pos. eapply (sig_pos HR Hsrc); eauto.
    - intros v j El. destruct (mem v l) eqn:E.
      + apply mem_In, HL in E. rewrite E in El. injection El as <-. rewrite Nat.leb_refl, H3, (dep_step HR Hsrc _ E) by auto. ring.
      + apply mem_false in E. assert (j <> k) by (intros ->; apply E, HL, El). destruct (Nat.leb_spec k j); [apply (H1 v j)|apply (H2 v j)]; auto; lia.
  Qed.
  Lemma deps_start P k l : (forall v, v < n -> P v = Some (qc (sig v))) -> is_level (S k) [] -> is_level k l -> deps k (finish (inverted P) (fun _ => Some 0%Qc) l).
  Proof.
    intros HP [_ HE] HL. assert (Hno : forall v j, lev v = Some j -> k < j -> False).
    { intros v j El Hj. destruct (lev_down HR Hsrc _ El (k := S k)) as [u Hu]; [lia|]. now apply HE in Hu. }
    eapply (@deps_next P k l _ (fun _ => 0%Qc) HP HL); auto.
    - intros v. apply Qcle_refl.
    - intros v j El Hj. destruct (Hno v j El Hj).
    - intros v El. rewrite filter_none; auto. intros w _. destruct (at_level (S k) w) eqn:E; auto. apply at_level_iff in E. destruct (Hno w (S k) E). lia.
  Qed.
  (* the hypotheses of a backward traversal *)
  Lemma backward_zero k V F f : from k V -> is_level k F -> (forall v j, lev v = Some j -> f v = if k <=? j then dep v else 0%Qc) ->
    forall d, d < n -> lev d <> None -> V d = false -> f d = 0%Qc /\ forall s, In s (outn d) -> In s F \/ f s = 0%Qc.
  Proof.
    intros HV [_ HF] Hf d Hd HRd Hv. destruct (lev d) as [j|] eqn:El; [|congruence].
    assert (Hj : j < k). { destruct (Nat.le_gt_cases k j); auto. assert (V d = true) by (apply HV; eauto). congruence. }
    split; [rewrite (Hf d j El); destruct (Nat.leb_spec k j); [lia|auto]|]. intros s Hs. destruct (lev_edge HR Hsrc _ _ Hs El) as (i & Ei & Hi).
    destruct (Nat.eq_dec i k) as [->|]; [left; now apply HF|]. right. rewrite (Hf s i Ei). destruct (Nat.leb_spec k i); [lia|auto].
  Qed.
  Lemma deps_round P k V F l f f' D' : (forall v, v < n -> P v = Some (qc (sig v))) -> from (S k) V -> is_level (S k) F -> is_level k l ->
    (forall v j, lev v = Some j -> f v = if S k <=? j then dep v else 0%Qc) ->
    (forall v, D' v = Some (f' v)) -> (forall v, (0 <= f' v)%Qc) -> (forall d, d < n -> V d = true -> f' d = f d) ->
    (forall d, d < n -> lev d <> None -> V d = false -> f' d = qsum (map f (filter (fun s => mem s F) (outn d)))) ->
    deps k (finish (inverted P) D' l).
  Proof.
    intros HP HV [NF HF] HL Hf HD Hnn H1 H2.
    assert (Hun : forall v j, lev v = Some j -> j < S k -> V v = false).
    { intros v j El Hj. destruct (V v) eqn:E; auto. apply HV in E as (i & Ei & Hi). rewrite El in Ei. injection Ei as <-. lia. }
    eapply (@deps_next P k l _ f' HP HL); auto.
    - intros v j El Hj. rewrite H1; [rewrite (Hf v j El); destruct (Nat.leb_spec (S k) j); [auto|lia]|eapply (lev_lt HR Hsrc); eauto|apply HV; exists j; auto].
    - intros v j El Hj. rewrite H2; [|eapply (lev_lt HR Hsrc); eauto|congruence|apply (Hun v j); auto; lia]. rewrite filter_none; auto. intros s Hs. apply mem_false. intros Hin. apply HF in Hin.
      destruct (lev_edge HR Hsrc _ _ Hs El) as (i & Ei & Hi). rewrite Hin in Ei. injection Ei as <-. lia.
    - intros v El. rewrite H2; [|eapply (lev_lt HR Hsrc); eauto|congruence|apply (Hun v k); auto; lia].
      rewrite (filter_mem_at (b := at_level (S k))) by (intros s; rewrite HF, at_level_iff; tauto). f_equal. apply map_ext_in. intros s Hs. apply filter_In in Hs as [_ Hs]. apply at_level_iff in Hs.
      rewrite (Hf s (S k) Hs), Nat.leb_refl. auto.
  Qed.
End Loops.
