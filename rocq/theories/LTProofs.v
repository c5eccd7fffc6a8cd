(* Proofs for C57. *)
From Verif Require Import Base ListUtil EMModel SVModel SVProofs UFSpec LTModel.

Section LTP.
  Variables largest n : nat.
  Hypothesis Hn : n <= largest.
  Variable E0 : list (nat * nat).
  Hypothesis HE0 : forall a b, In (a, b) E0 -> a < n /\ b < n.
  Notation C := (connected E0).

  Lemma C_refl a : C a a. Proof. apply rst_refl. Qed.
  Lemma C_sym a b : C a b -> C b a. Proof. apply rst_sym. Qed.
  Lemma C_trans a b c : C a b -> C b c -> C a c. Proof. apply rst_trans. Qed.

  Lemma less_ltb u v : u < n -> v < n -> lt_less largest u v = (u <? v).
  Proof. intros. unfold lt_less. now rewrite !(proj2 (Nat.eqb_neq _ _)) by lia. Qed.
  Lemma greater_ltb u v : u < n -> v < n -> lt_greater largest u v = (v <? u).
  Proof. intros. unfold lt_greater. now rewrite !(proj2 (Nat.eqb_neq _ _)) by lia. Qed.
  Lemma min_min u v : u < n -> v < n -> lt_min largest u v = Nat.min u v.
  Proof. intros. unfold lt_min. now rewrite !(proj2 (Nat.eqb_neq _ _)) by lia. Qed.
  Lemma max_max u v : u < n -> v < n -> lt_max largest u v = Nat.max u v.
  Proof. intros. unfold lt_max. now rewrite !(proj2 (Nat.eqb_neq _ _)) by lia. Qed.

  (* a labelling by smaller vertices of the component *)
  Definition good (f : nat -> nat) : Prop := forall v, v < n -> f v <= v /\ C v (f v).
  Definition gcall (c : nat * nat) : Prop := fst c < n /\ snd c < n /\ C (fst c) (snd c).

  (* ---------- messages ---------- *)
  Definition total (f : nat -> nat) : nat := list_sum (map f (seq 0 n)).
  Lemma total_le f g : (forall v, v < n -> f v <= g v) -> total f <= total g.
  Proof.
    intros H. unfold total. assert (G : forall l, (forall v, In v l -> v < n) -> list_sum (map f l) <= list_sum (map g l)).
    { induction l as [|a l IH]; intros Hl; simpl; auto. specialize (H a (Hl a (or_introl eq_refl))).
      assert (IH' := IH (fun v Hv => Hl v (or_intror Hv))). lia. }
    apply G. intros v Hv. apply in_seq in Hv. lia.
  Qed.
  Lemma total_fset f h l : h < n -> l < f h -> total (fset f h l) < total f.
  Proof.
    intros Hh Hl. unfold total. assert (G : forall xs, In h xs -> (forall v, In v xs -> fset f h l v <= f v) -> list_sum (map (fset f h l) xs) < list_sum (map f xs)).
    { assert (LE : forall xs, list_sum (map (fset f h l) xs) <= list_sum (map f xs)).
      { induction xs as [|a xs IH]; simpl; auto. enough (fset f h l a <= f a) by lia. unfold fset. destruct (Nat.eqb_spec a h); subst; lia. }
      induction xs as [|a xs IH]; [easy|]. intros Hin Hle. simpl. destruct Hin as [->|Hin].
      - rewrite fset_same. specialize (LE xs). lia.
      - assert (fset f h l a <= f a) by (apply Hle; now left). assert (X := IH Hin (fun v Hv => Hle v (or_intror Hv))). lia. }
    apply G.
    - apply in_seq. lia.
    - intros v _. unfold fset. destruct (Nat.eqb_spec v h); subst; lia.
  Qed.
  Lemma writes_ok calls : Forall gcall calls -> forall f b f' b', good f -> fold_left (msg_write largest) calls (f, b) = (f', b') ->
    good f' /\ (forall v, f' v <= f v) /\ (forall h l, In (h, l) calls -> f' h <= l) /\
    (forall v, f' v = f v \/ In (v, f' v) calls) /\
    (b' = false -> b = false /\ forall v, f' v = f v) /\ total f' <= total f /\ (b' = true -> b = true \/ total f' < total f).
  Proof.
    intros HC. induction HC as [|[h l] cs (G1 & G2 & G3) HC IH]; intros f b f' b' Hf H; cbn [fst snd] in *.
    - injection H as <- <-. repeat (split; auto). intros h l [].
    - cbn [fold_left] in H. unfold msg_write at 2 in H. cbn [fst snd] in H. destruct (Hf h G1) as [Hf1 Hf2].
      rewrite less_ltb in H by lia. destruct (Nat.ltb_spec l (f h)) as [Hl|Hl].
      + assert (Hg : good (fset f h l)).
        { intros v Hv. destruct (Nat.eq_dec v h) as [->|Hne]; [rewrite fset_same|rewrite fset_other by auto; now apply Hf]. split; [lia|auto]. }
        destruct (IH _ _ _ _ Hg H) as (I1 & I2 & I3 & I4 & I5 & I6 & I7).
        assert (LE : forall v, fset f h l v <= f v) by (intros v; unfold fset; destruct (Nat.eqb_spec v h); subst; lia).
        pose proof (total_fset f G1 Hl) as T.
        split; [auto|]. split; [intros v; etransitivity; [apply I2|apply LE]|]. split; [|split; [|split; [|split]]].
        * intros a x [X|X]; [|now apply I3]. injection X as -> ->. specialize (I2 a). now rewrite fset_same in I2.
        * intros v. destruct (I4 v) as [X|X]; [|right; now right]. rewrite X. destruct (Nat.eq_dec v h) as [->|Hne].
          -- rewrite fset_same. right. now left.
          -- rewrite fset_other by auto. now left.
        * intros Hb. destruct (I5 Hb). discriminate.
        * lia.
        * intros Hb. right. lia.
      + destruct (IH _ _ _ _ Hf H) as (I1 & I2 & I3 & I4 & I5 & I6 & I7).
        split; [auto|]. split; [auto|]. split; [|split; [|auto]].
        * intros a x [X|X]; [|now apply I3]. injection X as -> ->. specialize (I2 a). lia.
        * intros v. destruct (I4 v) as [X|X]; [now left|right; now right].
  Qed.

  (* ---------- one round ---------- *)
  Section Round.
    Variables (c : connect_option) (o : update_option) (full : bool) (E : list (nat * nat)).
    Variables (P msgs P' msgs' : nat -> nat) (ch : bool).
    Hypothesis HP : good P.
    Hypothesis HM : good msgs.
    Hypothesis HC : forall e, In e E -> Forall gcall (connect_calls largest c P e).
    Hypothesis HR : lt_round largest n c o full E P msgs P' msgs' ch.
    Let P1 := lt_update largest n o P msgs'.
    Let R := rootf (fun x => x) P1.

    Lemma round_msgs :
      good msgs' /\ (forall v, msgs' v <= msgs v) /\
      (forall e h l, In e E -> In (h, l) (connect_calls largest c P e) -> msgs' h <= l) /\
      (forall v, msgs' v = msgs v \/ exists e, In e E /\ In (v, msgs' v) (connect_calls largest c P e)) /\
      (ch = false -> forall v, msgs' v = msgs v) /\ (ch = true -> total msgs' < total msgs).
    Proof.
      destruct HR as [calls sched m' b Hperm Hw s F].
      assert (FC : Forall gcall calls).
      { rewrite Forall_forall. intros x Hx. apply (Permutation_in _ Hperm) in Hx. apply in_flat_map in Hx. destruct Hx as (e & He & Hx).
        specialize (HC e He). rewrite Forall_forall in HC. now apply HC. }
      destruct (writes_ok FC false HM Hw) as (W1 & W2 & W3 & W4 & W5 & W6 & W7).
      split; [auto|]. split; [auto|]. split; [|split; [|split]].
      - intros e h l He Hl. apply W3. apply (Permutation_in _ (Permutation_sym Hperm)). apply in_flat_map. eauto.
      - intros v. destruct (W4 v) as [X|X]; [now left|]. right. apply (Permutation_in _ Hperm) in X. apply in_flat_map in X. destruct X as (e & X). eauto.
      - intros Hb. now apply W5.
      - intros Hb. destruct (W7 Hb); [discriminate|auto].
    Qed.
    Lemma P1_val v : v < n -> P1 v = P v /\ o = RootUpdate /\ P v <> v \/ P1 v = Nat.min (P v) (msgs' v).
    Proof.
      intros Hv. destruct round_msgs as (GM & _). destruct (GM v Hv). destruct (HP Hv). unfold P1, lt_update.
      rewrite (proj2 (Nat.ltb_lt v n) Hv). destruct o.
      - right. now apply min_min; lia.
      - destruct (Nat.eqb_spec v (P v)); [right; apply min_min; lia|left; auto].
    Qed.
    Lemma P1_good : good P1.
    Proof.
      intros v Hv. destruct round_msgs as (GM & _). destruct (GM v Hv). destruct (HP Hv).
      destruct (P1_val Hv) as [(-> & _)| ->]; [auto|]. split; [lia|]. destruct (Nat.min_spec (P v) (msgs' v)) as [[_ ->]|[_ ->]]; auto.
    Qed.
    Lemma P1_le v : v < n -> P1 v <= P v.
    Proof. intros Hv. destruct (P1_val Hv) as [(-> & _)| ->]; lia. Qed.
    Lemma P1_ranked : ranked n (fun x => x) P1.
    Proof. intros v Hv. destruct (P1_good Hv). lia. Qed.
    Lemma P1_rooted : rooted n P1 R.
    Proof. apply rootf_rooted, P1_ranked. Qed.
    Lemma R_good : good R.
    Proof.
      intros v Hv. unfold R, rootf. generalize (S v) as k. intros k.
      assert (G : Nat.iter k P1 v <= v /\ C v (Nat.iter k P1 v)).
      { induction k as [|k [I1 I2]]; simpl; [split; auto using C_refl|]. destruct (@P1_good (Nat.iter k P1 v)) as [A B]; [lia|].
        split; [lia|]. eapply C_trans; eauto. }
      exact G.
    Qed.
    Lemma shortcut_spec : (forall v, v < n -> P' v <= P1 v) /\ rooted n P' R /\ (full = true -> forall v, v < n -> P' v = R v).
    Proof.
      unfold R, P1. pose proof P1_ranked as RK. pose proof P1_rooted as RR. unfold R, P1 in RK, RR. clear R P1. destruct HR as [calls sched m' b Hperm Hw s F].
      assert (J : jinv largest n (fun x => x) (rootf (fun x => x) (lt_update largest n o P m')) full (lt_update largest n o P m') (seq 0 n) s).
      { apply jexec_inv; [apply seq_NoDup|]. apply jstart_inv; auto. intros u Hu. apply in_seq in Hu. lia. }
      split; [|split].
      - apply J.
      - apply J.
      - intros Hf v Hv. eapply jumped in J; eauto; [apply J|]. apply in_seq. lia.
    Qed.
    Lemma P'_good : good P'.
    Proof.
      intros v Hv. destruct shortcut_spec as (S1 & S2 & _). destruct (P1_good Hv) as [A _]. specialize (S1 v Hv). split; [lia|].
      destruct (R_good Hv) as [_ B]. destruct (S2 v Hv) as (_ & D & _). destruct (@R_good (P' v)) as [_ F]; [lia|].
      rewrite D in F. eapply C_trans; [exact B|]. now apply C_sym.
    Qed.
    Lemma P'_le v : v < n -> P' v <= P v.
    Proof. intros Hv. destruct shortcut_spec as (S1 & _). specialize (S1 v Hv). pose proof (P1_le Hv). lia. Qed.
    (* after a full shortcut *)
    Lemma P'_flat : full = true -> forall v, v < n -> P' (P' v) = P' v.
    Proof.
      intros Hf v Hv. destruct shortcut_spec as (_ & _ & S3). pose proof (P'_good Hv) as [A _].
      rewrite (S3 Hf (P' v)) by lia. rewrite (S3 Hf v Hv). eapply rooted_idem; [apply P1_ranked|apply P1_rooted|auto].
    Qed.
    Lemma P'_root v : v < n -> P' v = v -> msgs' v = v.
    Proof.
      intros Hv Hr. destruct shortcut_spec as (_ & S2 & _). apply (S2 v Hv) in Hr. apply (P1_rooted Hv) in Hr.
      destruct round_msgs as (GM & _). destruct (GM v Hv). destruct (P1_val Hv) as [(X & _ & Y)|X]; [congruence|lia].
    Qed.
    (* the end *)
    Lemma least_label : (forall a b, In (a, b) E0 -> P a = P b) -> forall v, v < n -> C v (P' v) /\ forall u, C v u -> P' v <= u.
    Proof.
      intros HQ v Hv. split; [apply (P'_good Hv)|]. intros u Hu.
      assert (G : forall a b, C a b -> (a < n <-> b < n) /\ (a < n -> P a = P b)).
      { clear v Hv u Hu. intros a b K. induction K as [a b Hab|a|a b _ [I1 I2]|a b d _ [I1 I2] _ [J1 J2]].
        - destruct (HE0 _ _ Hab). split; [tauto|]. intros _. now apply HQ.
        - tauto.
        - split; [tauto|]. intros Hb. symmetry. apply I2. tauto.
        - split; [tauto|]. intros Ha. rewrite I2, J2; tauto. }
      destruct (G v u Hu) as [X Y]. apply X in Hv as Hun. destruct (HP Hun). pose proof (P'_le Hv). specialize (Y Hv). lia.
    Qed.
  End Round.

  Lemma good_lt f v : good f -> v < n -> f v < n.
  Proof. intros H Hv. destruct (H v Hv). lia. Qed.
  Lemma not_largest v : v < n -> (v =? largest) = false.
  Proof. intros. apply Nat.eqb_neq. lia. Qed.

  Lemma pair_call a b : a < n -> b < n -> C a b -> a <> b -> gcall (Nat.max a b, Nat.min a b).
  Proof.
    intros Ha Hb Hc Hne. unfold gcall. cbn [fst snd]. split; [lia|]. split; [lia|].
    destruct (Nat.max_spec a b) as [[X ->]|[X ->]]; destruct (Nat.min_spec a b) as [[Y ->]|[Y ->]]; try lia; auto using C_sym.
    all: replace b with a in * by lia; auto using C_refl.
  Qed.
  Lemma calls_good c P a b : good P -> a < n -> b < n -> C a b -> Forall gcall (connect_calls largest c P (a, b)).
  Proof.
    intros HP Ha Hb Hab. pose proof (good_lt HP Ha) as Pa. pose proof (good_lt HP Hb) as Pb. destruct (HP a Ha) as [_ Ca]. destruct (HP b Hb) as [_ Cb].
    assert (Cab : C (P a) (P b)) by (eapply C_trans; [apply C_sym; exact Ca|]; eapply C_trans; [exact Hab|exact Cb]).
    unfold connect_calls. cbn [fst snd]. rewrite !not_largest by auto. destruct c.
    - rewrite min_min, max_max by auto. destruct (Nat.eqb_spec (Nat.min a b) (Nat.max a b)); constructor; [|constructor]. apply pair_call; auto. lia.
    - rewrite min_min, max_max by auto. destruct (Nat.eqb_spec (Nat.min (P a) (P b)) (Nat.max (P a) (P b))); constructor; [|constructor]. apply pair_call; auto. lia.
    - destruct (Nat.eqb_spec (P a) (P b)); [constructor|]. rewrite less_ltb, greater_ltb by auto.
      assert (C a (P b)) by (eapply C_trans; eauto). assert (C b (P a)) by (eapply C_trans; [apply C_sym; exact Hab|exact Ca]).
      destruct (Nat.ltb_spec (P b) (P a)); [|destruct (Nat.ltb_spec (P a) (P b)); [|constructor]];
        (constructor; [|constructor; [|constructor]]); unfold gcall; cbn [fst snd]; auto using C_sym.
  Qed.

  (* ---------- rounds over a fixed edge list ---------- *)
  Section Fixed.
    Variables (c : connect_option) (o : update_option) (full : bool).
    (* the instantiated combinations that are right *)
    Hypothesis Hopt : (full = true /\ c <> SimpleConnect) \/ (c = ExtendedConnect /\ o = SimpleUpdate).
    Record finv (P msgs : nat -> nat) : Prop := {
      f_P : good P;
      f_M : good msgs;
      f_full : full = true -> forall v, v < n -> P (P v) = P v /\ (P v = v -> msgs v = v);
      f_simple : o = SimpleUpdate -> forall v, v < n -> P v <= msgs v }.
    Lemma finv_init : finv (fun i => i) (fun i => i).
    Proof. split; auto; intros v Hv; split; auto using C_refl. Qed.
    Lemma fixed_calls P : good P -> forall e, In e E0 -> Forall gcall (connect_calls largest c P e).
    Proof. intros HP [a b] He. destruct (HE0 _ _ He). apply calls_good; auto. now apply rst_step. Qed.
    Lemma finv_round P msgs P' msgs' ch : finv P msgs -> lt_round largest n c o full E0 P msgs P' msgs' ch ->
      finv P' msgs' /\ (ch = true -> total msgs' < total msgs) /\
      (ch = false -> forall v, v < n -> C v (P' v) /\ forall u, C v u -> P' v <= u).
    Proof.
      intros [HP HM HF HS] HR. pose proof (fixed_calls HP) as HC.
      destruct (round_msgs HM HC HR) as (M1 & M2 & M3 & M4 & M5 & M6).
      pose proof (P'_good HP HM HC HR) as GP'.
      split; [|split; [auto|]].
      - split; auto.
        + intros Hf v Hv. split; [exact (P'_flat HP HM HC HR Hf Hv)|exact (P'_root HP HM HC HR Hv)].
        + intros Ho v Hv. destruct (shortcut_spec HP HM HC HR) as (S1 & _). specialize (S1 v Hv).
          destruct (P1_val HP HM HC HR Hv) as [(_ & X & _)|X]; [congruence|]. lia.
      - intros Hch. apply (least_label HP HM HC HR). specialize (M5 Hch). intros a b Hab. destruct (HE0 _ _ Hab) as [Ha Hb].
        pose proof (good_lt HP Ha) as Pa. pose proof (good_lt HP Hb) as Pb.
        pose proof (M3 _ (P b) (P a) Hab) as T1. pose proof (M3 _ (P a) (P b) Hab) as T2.
        pose proof (M3 _ a (P b) Hab) as T3. pose proof (M3 _ b (P a) Hab) as T4.
        unfold connect_calls in T1, T2, T3, T4. cbn [fst snd] in T1, T2, T3, T4. rewrite !not_largest in * by auto.
        destruct (Nat.lt_trichotomy (P a) (P b)) as [L|[L|L]]; [exfalso| auto |exfalso].
        + assert (K : full = true -> c <> SimpleConnect -> False).
          { intros Hf Hc. destruct (HF Hf b Hb) as [F1 _]. destruct (HF Hf (P b) Pb) as [_ F2]. specialize (F2 F1).
            enough (msgs' (P b) <= P a) by (rewrite (M5 (P b)) in H; lia). apply T1. destruct c; [congruence| |].
            - rewrite min_min, max_max by auto. rewrite Nat.min_l, Nat.max_r by lia. rewrite (proj2 (Nat.eqb_neq _ _)) by lia. now left.
            - rewrite (proj2 (Nat.eqb_neq _ _)) by lia. rewrite less_ltb, greater_ltb by auto.
              rewrite (proj2 (Nat.ltb_ge _ _)) by lia. rewrite (proj2 (Nat.ltb_lt _ _)) by lia. now left. }
          destruct Hopt as [[Hf Hc]|[-> Ho]]; [auto|]. specialize (HS Ho b Hb).
          enough (msgs' b <= P a) by (rewrite M5 in H; lia). apply T4.
          rewrite (proj2 (Nat.eqb_neq _ _)) by lia. rewrite less_ltb, greater_ltb by auto.
          rewrite (proj2 (Nat.ltb_ge _ _)) by lia. rewrite (proj2 (Nat.ltb_lt _ _)) by lia. right. now left.
        + assert (K : full = true -> c <> SimpleConnect -> False).
          { intros Hf Hc. destruct (HF Hf a Ha) as [F1 _]. destruct (HF Hf (P a) Pa) as [_ F2]. specialize (F2 F1).
            enough (msgs' (P a) <= P b) by (rewrite (M5 (P a)) in H; lia). apply T2. destruct c; [congruence| |].
            - rewrite min_min, max_max by auto. rewrite Nat.min_r, Nat.max_l by lia. rewrite (proj2 (Nat.eqb_neq _ _)) by lia. now left.
            - rewrite (proj2 (Nat.eqb_neq _ _)) by lia. rewrite less_ltb by auto.
              rewrite (proj2 (Nat.ltb_lt _ _)) by lia. right. now left. }
          destruct Hopt as [[Hf Hc]|[-> Ho]]; [auto|]. specialize (HS Ho a Ha).
          enough (msgs' a <= P b) by (rewrite M5 in H; lia). apply T3.
          rewrite (proj2 (Nat.eqb_neq _ _)) by lia. rewrite less_ltb by auto. rewrite (proj2 (Nat.ltb_lt _ _)) by lia. now left.
    Qed.
  End Fixed.

  (* a round can always be run *)
  Lemma round_exists c o full E P msgs : good P -> good msgs -> (forall e, In e E -> Forall gcall (connect_calls largest c P e)) ->
    exists P' msgs' ch, lt_round largest n c o full E P msgs P' msgs' ch.
  Proof.
    intros HP HM HC. destruct (msg_writes largest (flat_map (connect_calls largest c P) E) msgs) as [msgs' ch] eqn:Hw.
    assert (FC : Forall gcall (flat_map (connect_calls largest c P) E)).
    { rewrite Forall_forall. intros x Hx. apply in_flat_map in Hx. destruct Hx as (e & He & Hx). specialize (HC e He). rewrite Forall_forall in HC. now apply HC. }
    destruct (writes_ok FC false HM Hw) as (GM & _).
    assert (RK : ranked n (fun x => x) (lt_update largest n o P msgs')).
    { intros v Hv. destruct (GM v Hv). destruct (HP v Hv). unfold lt_update. rewrite (proj2 (Nat.ltb_lt v n) Hv).
      destruct o; [|destruct (Nat.eqb_spec v (P v))]; rewrite ?min_min by lia; lia. }
    destruct (@jsome_schedule largest n (fun x => x) (rootf (fun x => x) (lt_update largest n o P msgs')) full (lt_update largest n o P msgs') (seq 0 n)
                (jstart (B1 full) (lt_update largest n o P msgs') (seq 0 n))) as [sched F].
    - apply seq_NoDup.
    - apply jstart_inv; auto; [now apply rootf_rooted|]. intros u Hu. apply in_seq in Hu. lia.
    - do 3 eexists. eapply lt_round_intro; [apply Permutation_refl|exact Hw|exact F].
  Qed.

  (* ---------- rounds over altered edges, full shortcuts ---------- *)
  Section Altered.
    Variables (c : connect_option) (o : update_option).
    Definition live (E : list (nat * nat)) := filter (fun e : nat * nat => negb (fst e =? snd e)) E.
    Record ainv (E : list (nat * nat)) (P msgs : nat -> nat) : Prop := {
      a_P : good P;
      a_M : good msgs;
      a_flat : forall v, v < n -> P (P v) = P v;
      a_root : forall v, v < n -> P v = v -> msgs v = v;
      a_le : forall v, v < n -> P v <= msgs v;
      a_E : E = map (fun e => (P (fst e), P (snd e))) E0 }.
    Lemma alter_map P E : (forall a b, In (a, b) E -> a < n /\ b < n) -> my_alter largest P E = map (fun e => (P (fst e), P (snd e))) E.
    Proof.
      intros H. unfold my_alter. apply map_ext_in. intros [a b] Hin. destruct (H a b Hin). cbn [fst snd]. now rewrite !not_largest.
    Qed.
    Lemma ainv_init : ainv (my_alter largest (fun i => i) E0) (fun i => i) (fun i => i).
    Proof. rewrite (alter_map _ _ HE0). split; auto; intros v Hv; split; auto using C_refl. Qed.
    Lemma live_in E P msgs e : ainv E P msgs -> In e (live E) ->
      exists a b, In (a, b) E0 /\ e = (P a, P b) /\ P a <> P b /\ a < n /\ b < n.
    Proof.
      intros HI He. unfold live in He. apply filter_In in He. destruct He as [He Hne]. rewrite (a_E HI) in He.
      apply in_map_iff in He. destruct He as ([a b] & <- & Hab). destruct (HE0 _ _ Hab). cbn [fst snd] in *.
      apply negb_true_iff, Nat.eqb_neq in Hne. exists a, b. auto.
    Qed.
    Lemma conn_edge P a b : good P -> In (a, b) E0 -> C (P a) (P b).
    Proof.
      intros HP Hab. destruct (HE0 _ _ Hab) as [Ha Hb]. destruct (HP a Ha) as [_ X]. destruct (HP b Hb) as [_ Y].
      eapply C_trans; [apply C_sym; exact X|]. eapply C_trans; [apply rst_step; exact Hab|exact Y].
    Qed.
    Lemma alt_calls E P msgs : ainv E P msgs -> forall e, In e (live E) -> Forall gcall (connect_calls largest c P e).
    Proof.
      intros HI e He. destruct (live_in _ HI He) as (a & b & Hab & -> & Hne & Ha & Hb). apply calls_good.
      - apply (a_P HI).
      - apply good_lt; auto. apply (a_P HI).
      - apply good_lt; auto. apply (a_P HI).
      - apply conn_edge; auto. apply (a_P HI).
    Qed.
    (* the calls of a live edge: the larger root is told the smaller one, and nothing else *)
    Lemma alt_call E P msgs x y : ainv E P msgs -> In (x, y) (live E) ->
      x < n /\ y < n /\ x <> y /\ P x = x /\ P y = y /\
      (forall h l, In (h, l) (connect_calls largest c P (x, y)) -> P h = h) /\
      In (Nat.max x y, Nat.min x y) (connect_calls largest c P (x, y)).
    Proof.
      intros HI He. destruct (live_in _ HI He) as (a & b & Hab & Hxy & Hne & Ha & Hb). injection Hxy as -> ->.
      pose proof (good_lt (a_P HI) Ha) as Pa. pose proof (good_lt (a_P HI) Hb) as Pb.
      pose proof (a_flat HI Ha) as Fa. pose proof (a_flat HI Hb) as Fb.
      repeat (split; [assumption|]). unfold connect_calls. cbn [fst snd]. rewrite !not_largest by auto. rewrite Fa, Fb.
      destruct c.
      - rewrite min_min, max_max by auto. rewrite (proj2 (Nat.eqb_neq _ _)) by lia. split; [|now left].
        intros h l [X|[]]. injection X as <- <-. destruct (Nat.max_spec (P a) (P b)) as [[_ ->]|[_ ->]]; auto.
      - rewrite min_min, max_max by auto. rewrite (proj2 (Nat.eqb_neq _ _)) by lia. split; [|now left].
        intros h l [X|[]]. injection X as <- <-. destruct (Nat.max_spec (P a) (P b)) as [[_ ->]|[_ ->]]; auto.
      - rewrite (proj2 (Nat.eqb_neq _ _)) by lia. rewrite less_ltb, greater_ltb by auto.
        destruct (Nat.ltb_spec (P b) (P a)) as [L|L]; [|rewrite (proj2 (Nat.ltb_lt _ _)) by lia].
        + rewrite Nat.max_l, Nat.min_r by lia. split; [|now left]. intros h l [X|[X|[]]]; injection X as <- <-; auto.
        + rewrite Nat.max_r, Nat.min_l by lia. split; [|now left]. intros h l [X|[X|[]]]; injection X as <- <-; auto.
    Qed.
    Lemma ainv_round E P msgs P' msgs' ch : ainv E P msgs -> lt_round largest n c o true (live E) P msgs P' msgs' ch ->
      ainv (my_alter largest P' E) P' msgs' /\ (ch = true -> total msgs' < total msgs) /\
      (ch = false -> forall v, v < n -> C v (P' v) /\ forall u, C v u -> P' v <= u).
    Proof.
      intros HI HR. pose proof (a_P HI) as HP. pose proof (a_M HI) as HM. pose proof (alt_calls HI) as HC.
      destruct (round_msgs HM HC HR) as (M1 & M2 & M3 & M4 & M5 & M6).
      pose proof (P'_good HP HM HC HR) as GP'. destruct (shortcut_spec HP HM HC HR) as (S1 & S2 & S3). specialize (S3 eq_refl).
      (* only roots get messages, so the others keep their parent *)
      assert (NR : forall v, v < n -> P v <> v -> lt_update largest n o P msgs' v = P v).
      { intros v Hv Hne. destruct (P1_val HP HM HC HR Hv) as [(X & _)|X]; [exact X|]. rewrite X.
        destruct (M4 v) as [Y|([x y] & He & Y)].
        - rewrite Y. pose proof (a_le HI Hv). lia.
        - destruct (alt_call _ _ HI He) as (_ & _ & _ & _ & _ & K & _). apply K in Y. contradiction. }
      assert (CO : forall v, v < n -> P' (P v) = P' v).
      { intros v Hv. destruct (Nat.eq_dec (P v) v) as [X|X]; [now rewrite X|].
        rewrite (S3 v Hv), (S3 (P v)) by (now apply good_lt). rewrite <- (NR v Hv X). apply (P1_rooted HP HM HC HR Hv). }
      split; [|split; [auto|]].
      - split; auto.
        + intros v Hv. exact (P'_flat HP HM HC HR eq_refl Hv).
        + intros v Hv. exact (P'_root HP HM HC HR Hv).
        + intros v Hv. specialize (S1 v Hv). destruct (Nat.eq_dec (P v) v) as [X|X].
          * destruct (P1_val HP HM HC HR Hv) as [(_ & _ & Y)|Y]; [congruence|]. lia.
          * rewrite (NR v Hv X) in S1. destruct (M4 v) as [Y|([x y] & He & Y)].
            -- pose proof (a_le HI Hv). lia.
            -- destruct (alt_call _ _ HI He) as (_ & _ & _ & _ & _ & K & _). apply K in Y. contradiction.
        + rewrite alter_map.
          * rewrite (a_E HI), map_map. apply map_ext_in. intros [a b] Hab. destruct (HE0 _ _ Hab). cbn [fst snd]. now rewrite !CO.
          * intros x y Hxy. rewrite (a_E HI) in Hxy. apply in_map_iff in Hxy. destruct Hxy as ([a b] & X & Hab). injection X as <- <-.
            destruct (HE0 _ _ Hab). split; now apply good_lt.
      - intros Hch. specialize (M5 Hch). apply (least_label HP HM HC HR). intros a b Hab. destruct (HE0 _ _ Hab) as [Ha Hb].
        destruct (Nat.eq_dec (P a) (P b)) as [X|X]; auto. exfalso.
        assert (He : In (P a, P b) (live E)).
        { unfold live. apply filter_In. split; [|cbn; now apply negb_true_iff, Nat.eqb_neq]. rewrite (a_E HI). apply in_map_iff. exists (a, b). auto. }
        destruct (alt_call _ _ HI He) as (X1 & X2 & X3 & X4 & X5 & _ & X6). apply (M3 _ _ _ He) in X6. rewrite M5 in X6.
        destruct (Nat.max_spec (P a) (P b)) as [[Y Z]|[Y Z]]; rewrite Z in X6.
        + rewrite (a_root HI X2 X5) in X6. lia.
        + rewrite (a_root HI X1 X4) in X6. lia.
    Qed.
  End Altered.
End LTP.
