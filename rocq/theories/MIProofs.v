(* Proofs for C41. *)
From Coq Require Import ZArith Permutation Sorted.
From Verif Require Import Base ListUtil VSModel VSSpec VSProofs VSProps EMModel EMSpec EMModes BKSpec BKProofs KCSpec KCProofs FAModel FAProofs CDModel CDProofs MIModel MISpec.

Lemma map_set_spec {A} n (U : vset unit) F (x : A) a v : Inv n U (plain F) -> map_set U x a v = if mem v F then x else a v.
Proof.
  intros HU. unfold map_set. assert (Hin : forall c, In c (map fst (vertexMap_calls tt U)) <-> In c F).
  { intros c. rewrite <- (in_plain F c). pose proof (Permutation_map fst (calls_perm tt HU)) as Hp. split; apply Permutation_in; auto. now apply Permutation_sym. }
  revert Hin. generalize (vertexMap_calls tt U). intros l Hin.
  assert (G : forall (l : list (nat * unit)) (a : nat -> A), fold_left (fun a c => fset a (fst c) x) l a v = if mem v (map fst l) then x else a v).
  { clear. induction l as [|[c []] l IH]; intros a; simpl; auto. rewrite IH. destruct (mem v (map fst l)) eqn:E; [now rewrite orb_true_r|]. rewrite orb_false_r.
    destruct (Nat.eqb_spec v c) as [->|N]; [apply fset_same|now apply fset_other]. }
  rewrite G. assert (mem v (map fst l) = mem v F) as ->; auto. apply eq_true_iff_eq. rewrite !mem_In. apply Hin.
Qed.

(* the greedy set is unique and is a maximal independent set *)
Lemma greedy_unique n outn rank S S' : (forall u v, u < n -> In v (outn u) -> v < n) ->
  greedy_set n outn rank S -> greedy_set n outn rank S' -> forall v, v < n -> S v = S' v.
Proof.
  intros Hout G G' v. remember (rank v) as r eqn:Er. revert v Er. induction r as [r IH] using lt_wf_ind. intros v -> Hv.
  apply eq_true_iff_eq. rewrite (G v Hv), (G' v Hv). split; intros H u Hu Hr; specialize (H u Hu Hr).
  - rewrite <- (IH (rank u) Hr u eq_refl); eauto.
  - rewrite (IH (rank u) Hr u eq_refl); eauto.
Qed.
Lemma greedy_maximal n outn rank S : symmetric n outn -> (forall u v, u < n -> v < n -> rank u = rank v -> u = v) ->
  greedy_set n outn rank S -> maximal_independent n outn S.
Proof.
  intros [S1 S2] Hinj G. split.
  - intros u v Hu Hv N Su Sv. pose proof (S1 u v Hu Hv) as Hvn.
    assert (Huv : In u (outn v)) by (apply (count_occ_In Nat.eq_dec); rewrite <- (S2 u v Hu Hvn); now apply (count_occ_In Nat.eq_dec)).
    destruct (Nat.lt_trichotomy (rank u) (rank v)) as [H|[H|H]].
    + rewrite (proj1 (G v Hvn) Sv u Huv H) in Su. discriminate.
    + apply N. auto.
    + rewrite (proj1 (G u Hu) Su v Hv H) in Sv. discriminate.
  - intros v Hv Sv. destruct (existsb (fun u => (rank u <? rank v) && S u) (outn v)) eqn:E.
    + apply existsb_exists in E as (u & Hu & E). apply andb_true_iff in E as [E1 E2]. apply Nat.ltb_lt in E1. exists u. split; auto. split; auto. intros ->. lia.
    + rewrite (proj2 (G v Hv)) in Sv; [discriminate|]. intros u Hu Hr. destruct (S u) eqn:Eu; auto.
      assert (X : existsb (fun u => (rank u <? rank v) && S u) (outn v) = true); [|congruence].
      apply existsb_exists. exists u. split; auto. rewrite Eu, andb_true_r. now apply Nat.ltb_lt.
Qed.

Section Rootset.
  Variable n : nat.
  Variable outn : nat -> list nat.
  Variable m : nat.
  Variable perm : nat -> nat.
  Hypothesis Hsym : symmetric n outn.
  Hypothesis Hinj : forall u v, u < n -> v < n -> perm u = perm v -> u = v.
  Notation mi_loop := (mi_loop n outn m perm).

  Lemma madj u v : u < n -> In v (outn u) -> v < n /\ In u (outn v).
  Proof.
    intros Hu H. destruct Hsym as [S1 S2]. pose proof (S1 u v Hu H) as Hv. split; auto.
    apply (count_occ_In Nat.eq_dec). rewrite <- (S2 u v Hu Hv). now apply (count_occ_In Nat.eq_dec).
  Qed.
  Lemma mgraph : graph_ok n outn outn.
  Proof.
    split.
    - intros s d Hs Hd. split; intros H; now apply madj.
    - apply Hsym.
    - intros s d. apply Hsym.
  Qed.
  Definition mleft (Dn : list nat) (v : nat) : nat := length (filter (fun u => (perm u <? perm v) && negb (mem u Dn)) (outn v)).
  Lemma mleft_0 Dn v : mleft Dn v = 0 <-> forall u, In u (outn v) -> perm u < perm v -> In u Dn.
  Proof.
    unfold mleft. rewrite length_zero_iff_nil. split.
    - intros E u Hu He. destruct (mem u Dn) eqn:Em; [now apply mem_In|]. assert (In u []) as []. rewrite <- E. apply filter_In. split; auto.
      rewrite Em. simpl. rewrite andb_true_r. now apply Nat.ltb_lt.
    - intros H. destruct (filter _ _) as [|x l] eqn:E; auto. assert (Hx : In x (x :: l)) by now left. rewrite <- E in Hx. apply filter_In in Hx as [Hx Ho].
      apply andb_true_iff in Ho as [H1 H2]. apply negb_true_iff in H2. apply Nat.ltb_lt, H in H1; auto. apply mem_In in H1. congruence.
  Qed.

  Record MI (f : nat) (S : nat -> bool) (p : nat -> Z) (U : vset unit) (Dn R : list nat) : Prop := {
    mi_nd : NoDup Dn;
    mi_lt : forall v, In v Dn -> v < n;
    mi_f : f = length Dn;
    mi_U : built n U (plain R);
    mi_R : forall v, In v R <-> v < n /\ ~ In v Dn /\ mleft Dn v = 0;
    mi_p : forall v, v < n -> p v = if mem v Dn then 0%Z else Z.of_nat (mleft Dn v);
    mi_in : forall v, S v = true -> In v Dn;
    mi_nbr : forall v u, S v = true -> In u (outn v) -> In u Dn;
    mi_yes : forall v u, S v = true -> In u (outn v) -> perm u < perm v -> S u = false;
    mi_no : forall v, In v Dn -> S v = false -> exists u, In u (outn v) /\ perm u < perm v /\ S u = true }.

  Lemma mR_nd f S p U Dn R : MI f S p U Dn R -> NoDup R.
  Proof. intros H. destruct (mi_U H) as [[Hn _] _]. unfold plain in Hn. now rewrite map_map, map_id in Hn. Qed.

  Lemma mi_start_ok : MI 0 (fun _ => false) (mi_priorities outn perm) (vs_sparse n (plain (filter (fun v => (mi_priorities outn perm v =? 0)%Z) (seq 0 n)))) []
      (filter (fun v => (mi_priorities outn perm v =? 0)%Z) (seq 0 n)).
  Proof.
    assert (Hl : forall v, mi_priorities outn perm v = Z.of_nat (mleft [] v)).
    { intros v. unfold mi_priorities, mleft. do 2 f_equal. apply filter_ext_in'. intros u _. simpl. now rewrite andb_true_r. }
    constructor; try (simpl; tauto); try discriminate.
    - constructor.
    - split; [|right; left; reflexivity]. split; unfold plain.
      + rewrite map_map, map_id. apply NoDup_filter', seq_NoDup.
      + apply Forall_map, Forall_forall. intros v Hv. apply filter_In in Hv as [Hv _]. apply in_seq in Hv. simpl. lia.
    - intros v. rewrite filter_In, in_seq, Z.eqb_eq, Hl. simpl. split; intros; intuition lia.
    - intros v _. simpl. apply Hl.
  Qed.

  Section Round.
    Variables (f : nat) (S : nat -> bool) (p : nat -> Z) (U : vset unit) (Dn R : list nat).
    Hypothesis HI : MI f S p U Dn R.
    Variable par' : pstate.
    Variable removed : vset unit.
    Hypothesis Hvis : edgeMap_visit n outn outn m None cd_flags U (visited_of p) par' removed.
    Notation ok := (fun s d => perm s <? perm d).

    Lemma removed_ok : exists Rm, NoDup Rm /\ built n removed (plain Rm) /\
      (forall d, In d Rm <-> d < n /\ ~ In d Dn /\ ~ In d R /\ exists s, In s R /\ In d (outn s)) /\
      (forall d, d < n -> zero_visited p par' d = if mem d Rm then 0%Z else p d).
    Proof.
      destruct (visit_advanced R mgraph (mi_U HI) Hvis) as ((l & Hl1 & Hl2 & Hl3 & _) & H2 & H3).
      assert (HRn : forall s, In s R -> s < n) by (intros s Hs; now apply (mi_R HI) in Hs).
      assert (Hnv : forall d, next_vertex outn (visited_of p) R d <-> d < n /\ ~ In d Dn /\ ~ In d R /\ exists s, In s R /\ In d (outn s)).
      { intros d. unfold next_vertex, visited_of. split.
        - intros [Hd (s & Hs & Hsd)]. destruct (@madj s d (HRn s Hs) Hsd) as [Hdn _]. split; auto. rewrite (mi_p HI Hdn) in Hd.
          destruct (mem d Dn) eqn:Ed; [discriminate|]. destruct (Z.ltb_spec 0 (Z.of_nat (mleft Dn d))); [|discriminate].
          split; [intros X; apply mem_In in X; congruence|]. split; [|eauto]. intros X. apply (mi_R HI) in X. lia.
        - intros (Hd & HnD & HnR & X). split; auto. rewrite (mi_p HI Hd). destruct (mem d Dn) eqn:Ed; [apply mem_In in Ed; contradiction|].
          destruct (Z.ltb_spec 0 (Z.of_nat (mleft Dn d))); auto. exfalso. apply HnR, (mi_R HI). split; auto. split; auto. lia. }
      exists l. split; auto. split; auto. split; [intros d; now rewrite Hl2, Hnv|].
      intros d Hd. unfold zero_visited. destruct (mem d l) eqn:E.
      - apply mem_In, Hl2 in E. destruct (H2 d E) as (s & _ & _ & ->). destruct E as [-> _]. reflexivity.
      - rewrite H3; [now destruct (visited_of p d)|]. intros X. apply Hl2, mem_In in X. congruence.
    Qed.

    Variable Rm : list nat.
    Hypothesis Hnd : NoDup Rm.
    Hypothesis Hb : built n removed (plain Rm).
    Hypothesis HRm : forall d, In d Rm <-> d < n /\ ~ In d Dn /\ ~ In d R /\ exists s, In s R /\ In d (outn s).
    Hypothesis Hz : forall d, d < n -> zero_visited p par' d = if mem d Rm then 0%Z else p d.
    Notation p1 := (map_set removed 0%Z (zero_visited p par')).
    Notation Dn' := (Rm ++ R ++ Dn).

    Lemma p1_ok d : d < n -> p1 d = if mem d Dn' then 0%Z else Z.of_nat (mleft Dn d).
    Proof.
      intros Hd. rewrite (map_set_spec _ _ _ _ (built_inv tt Hb)). rewrite Hz by auto. unfold mem at 3. rewrite !existsb_app. fold (mem d Rm) (mem d R) (mem d Dn).
      destruct (mem d Rm) eqn:E1; auto. simpl. rewrite (mi_p HI Hd). destruct (mem d Dn) eqn:E2; [now rewrite orb_true_r|]. rewrite orb_false_r.
      destruct (mem d R) eqn:E3; auto. apply mem_In, (mi_R HI) in E3 as (_ & _ & ->). reflexivity.
    Qed.
    Lemma p1_pos d : d < n -> (0 < p1 d)%Z <-> ~ In d Dn'.
    Proof.
      intros Hd. rewrite p1_ok by auto. destruct (mem d Dn') eqn:E.
      - apply mem_In in E. split; [lia|tauto].
      - apply mem_false in E. split; auto. intros _. rewrite !in_app_iff in E. destruct (mleft Dn d) eqn:El; [|lia]. exfalso. apply E. right; left. apply (mi_R HI). tauto.
    Qed.
    Lemma mleft_split d : d < n -> ~ In d Dn' -> mleft Dn d = mleft Dn' d + length (filter (fun s => existsb (Nat.eqb s) Rm && (perm s <? perm d)) (outn d)).
    Proof.
      intros Hd Hn. rewrite !in_app_iff in Hn. unfold mleft. rewrite Nat.add_comm.
      rewrite (@filter_split _ (fun s => existsb (Nat.eqb s) Rm && (perm s <? perm d)) (fun u => (perm u <? perm d) && negb (mem u Dn)) (outn d)).
      - f_equal. f_equal. apply filter_ext_in'. intros u Hu. unfold mem. rewrite !existsb_app.
        assert (Hr : existsb (Nat.eqb u) R = false).
        { destruct (existsb (Nat.eqb u) R) eqn:E; auto. apply mem_In in E. exfalso. apply Hn. left. apply HRm. split; auto. split; [tauto|]. split; [tauto|].
          exists u. split; auto. now apply madj. }
        rewrite Hr. destruct (perm u <? perm d), (existsb (Nat.eqb u) Rm), (existsb (Nat.eqb u) Dn); reflexivity.
      - intros u Hu Hm. apply andb_true_iff in Hm as [H1 H2]. rewrite H2. simpl. apply negb_true_iff, mem_false. apply mem_In, HRm in H1. tauto.
    Qed.
    Lemma Rm_hits d : d < n -> hits ok outn Rm d = Z.of_nat (length (filter (fun s => existsb (Nat.eqb s) Rm && (perm s <? perm d)) (outn d))).
    Proof. intros Hd. rewrite (@hits_sym ok n outn Rm d); auto. intros u Hu. now apply HRm in Hu. Qed.
    Lemma Rm_out d : n <= d -> hits ok outn Rm d = 0%Z.
    Proof. intros Hd. eapply hits_out; [exact (built_inv tt Hb)|apply Hsym|auto]. Qed.
    Lemma Rm_le d : (0 < p1 d)%Z -> (hits ok outn Rm d <= p1 d)%Z.
    Proof.
      intros Hp. destruct (Nat.lt_ge_cases d n) as [Hd|Hd]; [|rewrite Rm_out by auto; lia].
      assert (Hn := proj1 (p1_pos Hd) Hp). rewrite p1_ok, Rm_hits, mleft_split by auto. rewrite (proj2 (mem_false d Dn') Hn). lia.
    Qed.

    Lemma Dn'_nd : NoDup Dn'.
    Proof.
      apply NoDup_app_iff. split; auto. split.
      - apply NoDup_app_iff. split; [eapply mR_nd; eauto|]. split; [apply (mi_nd HI)|]. intros v Hv. apply (mi_R HI) in Hv. tauto.
      - intros v Hv X. apply HRm in Hv. apply in_app_iff in X. tauto.
    Qed.
    Lemma Dn'_lt v : In v Dn' -> v < n.
    Proof. rewrite !in_app_iff. intros [H|[H|H]]; [now apply HRm in H|now apply (mi_R HI) in H|now apply (mi_lt HI)]. Qed.
    Lemma sizes : f + size U + size removed = length Dn'.
    Proof. rewrite (built_size R (mi_U HI)), (built_size Rm Hb), !app_length, (mi_f HI). lia. Qed.

    Lemma round_ok p' U' : edgeMap_count ok n outn outn m removed p1 p' U' ->
      exists R', MI (f + size U + size removed) (map_set U true S) p' U' Dn' R'.
    Proof.
      intros Hem.
      destruct (@edgeMap_count_ok ok n outn outn Rm removed p1 (built_inv tt Hb) (proj1 Hsym) Rm_hits (fun s d Hd Hs => proj1 Hsym d s Hd Hs) Rm_le m p' U' Hem) as [Hp' (l & Hl1 & Hl2 & Hl3)].
      assert (Hp'' : forall v, v < n -> p' v = if mem v Dn' then 0%Z else Z.of_nat (mleft Dn' v)).
      { intros v Hv. rewrite Hp', (p1_ok Hv). destruct (mem v Dn') eqn:E; [reflexivity|]. apply mem_false in E.
        pose proof (proj2 (p1_pos Hv) E) as Hq. rewrite (p1_ok Hv), (proj2 (mem_false v Dn') E) in Hq. rewrite (proj2 (Z.ltb_lt _ _) Hq), Rm_hits, (mleft_split Hv E) by auto. lia. }
      assert (HS : forall v, map_set U true S v = mem v R || S v).
      { intros v. rewrite (map_set_spec _ _ _ _ (built_inv tt (mi_U HI))). now destruct (mem v R). }
      assert (HRu : forall v u, In v R -> In u (outn v) -> In u Dn').
      { intros v u Hv Hu. rewrite !in_app_iff. destruct (in_dec Nat.eq_dec u Dn); auto. destruct (in_dec Nat.eq_dec u R); auto. left. apply HRm.
        split; [apply (@madj v u); auto; now apply (mi_R HI) in Hv|]. split; auto. split; auto. eauto. }
      (* two roots are not adjacent *)
      assert (HRR : forall v u, In v R -> In u R -> In u (outn v) -> u = v).
      { intros v u Hv Hu Ha. destruct (Nat.eq_dec u v) as [|N]; auto. exfalso. apply (mi_R HI) in Hv as (V1 & V2 & V3), Hu as (U1 & U2 & U3). rewrite mleft_0 in V3, U3.
        destruct (Nat.lt_trichotomy (perm u) (perm v)) as [H|[H|H]].
        - apply U2. apply (V3 u); auto.
        - apply N. auto.
        - apply V2. apply (U3 v); auto. now apply (@madj v u). }
      exists l. constructor.
      - apply Dn'_nd.
      - apply Dn'_lt.
      - apply sizes.
      - exact Hl3.
      - intros v. rewrite Hl2. split.
        + intros [Hq Hh]. destruct (Nat.lt_ge_cases v n) as [Hv|Hv]; [|rewrite Rm_out in Hh by auto; lia].
          pose proof (proj1 (p1_pos Hv) Hq) as Hn. split; auto. split; auto. pose proof (Hp'' v Hv) as X. rewrite Hp', (proj2 (Z.ltb_lt _ _) Hq), (proj2 (mem_false v Dn') Hn) in X. lia.
        + intros (Hv & Hn & Hm). pose proof (proj2 (p1_pos Hv) Hn) as Hq. split; auto. pose proof (Hp'' v Hv) as X.
          rewrite Hp', (proj2 (Z.ltb_lt _ _) Hq), (proj2 (mem_false v Dn') Hn) in X. lia.
      - exact Hp''.
      - intros v. rewrite HS, orb_true_iff, mem_In, !in_app_iff. intros [H|H]; auto. right; right. now apply (mi_in HI).
      - intros v u. rewrite HS, orb_true_iff, mem_In. intros [H|H] Hu; [eapply HRu; eauto|]. rewrite !in_app_iff. right; right. eapply (mi_nbr HI); eauto.
      - intros v u. rewrite !HS, orb_true_iff, mem_In. intros [H|H] Hu Hp.
        + apply orb_false_iff. assert (Hu' : In u Dn) by (apply (mi_R HI) in H as (_ & _ & H); rewrite mleft_0 in H; auto). split.
          * apply mem_false. intros X. apply (mi_R HI) in X. tauto.
          * destruct (S u) eqn:Es; auto. exfalso. pose proof (proj1 (mi_R HI v) H) as (Hv & Hd & _). apply Hd. eapply (mi_nbr HI); eauto. now apply (@madj v u).
        + apply orb_false_iff. pose proof (mi_nbr HI _ _ H Hu). split; [|eapply (mi_yes HI); eauto]. apply mem_false. intros X. apply (mi_R HI) in X. tauto.
      - intros v Hv. rewrite HS, orb_false_iff, mem_false. intros [HnR Hs]. rewrite !in_app_iff in Hv. destruct Hv as [Hv|[Hv|Hv]]; [|contradiction|].
        + apply HRm in Hv as (Hvn & Hvd & Hvr & s & Hs1 & Hs2). exists s. rewrite HS. pose proof (proj1 (mi_R HI s) Hs1) as (A & B & C). destruct (@madj s v A Hs2) as [_ Hvs].
          split; auto. split; [|apply orb_true_iff; left; now apply mem_In].
          destruct (Nat.lt_trichotomy (perm s) (perm v)) as [H|[H|H]]; auto.
          * exfalso. assert (s = v) by auto. subst. auto.
          * exfalso. rewrite mleft_0 in C. apply Hvd. apply C; auto.
        + destruct (mi_no HI v Hv Hs) as (u & A & B & C). exists u. split; auto. split; auto. rewrite HS, C. apply orb_true_r.
    Qed.
  End Round.

  Lemma mi_loop_ok f S p U : mi_loop f S p U -> exists Dn R, MI f S p U Dn R.
  Proof.
    induction 1 as [|f S p U par' removed p' U' _ (Dn & R & HI) _ Hv He]; [eexists _, _; apply mi_start_ok|].
    destruct (removed_ok HI Hv) as (Rm & A & B & C & D). destruct (@round_ok _ _ _ _ _ _ HI _ _ _ A B C D _ _ He) as [R' H]. eauto.
  Qed.
  Lemma mi_le f S p U Dn R : MI f S p U Dn R -> f <= n.
  Proof.
    intros HI. rewrite (mi_f HI). rewrite <- (seq_length n 0). apply NoDup_incl_length; [apply HI|]. intros v Hv. apply in_seq. pose proof (mi_lt HI v Hv). lia.
  Qed.
  Lemma mi_all S p U Dn R : MI n S p U Dn R -> forall v, v < n -> In v Dn.
  Proof.
    intros HI v Hv. assert (Hincl : incl (seq 0 n) Dn); [|apply Hincl, in_seq; lia].
    apply NoDup_length_incl; [apply HI|rewrite seq_length, <- (mi_f HI); lia|]. intros u Hu. apply in_seq. pose proof (mi_lt HI u Hu). lia.
  Qed.
  Lemma mi_roots f S p U Dn R : MI f S p U Dn R -> f <> n -> R <> [].
  Proof.
    intros HI Hf.
    assert (Hne : exists v, v < n /\ ~ In v Dn).
    { destruct (existsb (fun v => negb (mem v Dn)) (seq 0 n)) eqn:E.
      - apply existsb_exists in E as (v & Hv & Hm). apply in_seq in Hv. apply negb_true_iff, mem_false in Hm. exists v. split; auto. lia.
      - exfalso. apply Hf. apply Nat.le_antisymm; [eapply mi_le; eauto|]. rewrite (mi_f HI). rewrite <- (seq_length n 0) at 1. apply NoDup_incl_length; [apply seq_NoDup|].
        intros v Hv. destruct (in_dec Nat.eq_dec v Dn) as [|N]; auto. exfalso.
        assert (X : existsb (fun v => negb (mem v Dn)) (seq 0 n) = true); [|congruence]. apply existsb_exists. exists v. split; auto. now apply negb_true_iff, mem_false. }
    destruct Hne as (v & Hv & Hd). remember (perm v) as r eqn:Er. revert v Er Hv Hd. induction r as [r IH] using lt_wf_ind. intros v -> Hv Hd.
    destruct (Nat.eq_dec (mleft Dn v) 0) as [E|E].
    - assert (HR : In v R) by (apply (mi_R HI); auto). destruct R; [destruct HR|congruence].
    - unfold mleft in E. destruct (filter _ _) as [|u l] eqn:Ef; [simpl in E; lia|]. assert (Hu : In u (u :: l)) by now left. rewrite <- Ef in Hu.
      apply filter_In in Hu as [Hu Hq]. apply andb_true_iff in Hq as [H1 H2]. apply Nat.ltb_lt in H1. apply negb_true_iff, mem_false in H2.
      apply (IH (perm u) H1 u); auto. now apply (@madj v u).
  Qed.
  Lemma mi_step f S p U : mi_loop f S p U -> f <> n ->
    0 < size U /\ exists (removed : vset unit) S' p' U', mi_loop (f + size U + size removed) S' p' U'.
  Proof.
    intros HL Hf. destruct (mi_loop_ok HL) as (Dn & R & HI). pose proof (mi_roots HI Hf) as Hne.
    destruct (@visit_progress n outn outn R U (visited_of p) m None cd_flags mgraph (mi_U HI)) as (par' & removed & Hv).
    destruct (removed_ok HI Hv) as (Rm & A & B & C & D).
    destruct (@edgeMap_count_runs (fun s d => perm s <? perm d) n outn outn Rm removed (map_set removed 0%Z (zero_visited p par')) (built_inv tt B) (proj1 Hsym) (@Rm_le _ _ _ _ _ _ HI _ _ _ A B C D) m) as (p' & U' & He).
    split; [rewrite (built_size R (mi_U HI)); destruct R; [congruence|simpl; lia]|]. exists removed. eexists _, _, _. eapply mi_round; eauto.
  Qed.
  Lemma mi_returns_from k : forall f S p U, n <= f + k -> mi_loop f S p U -> exists S', mis_returns n outn m perm S'.
  Proof.
    induction k as [|k IH]; intros f S p U Hk HL; destruct (mi_loop_ok HL) as (Dn & R & HI); pose proof (mi_le HI).
    - assert (f = n) as -> by lia. exists S, p, U. auto.
    - destruct (Nat.eq_dec f n) as [->|N]; [exists S, p, U; auto|]. destruct (mi_step HL N) as (Hs & rm & c' & p' & U' & HL'). eapply IH; [|exact HL']. lia.
  Qed.
  Lemma mi_greedy S : mis_returns n outn m perm S -> greedy_set n outn perm S.
  Proof.
    intros (p & U & HL). destruct (mi_loop_ok HL) as (Dn & R & HI). intros v Hv. split.
    - intros Hs u Hu Hp. eapply (mi_yes HI); eauto.
    - intros H. destruct (S v) eqn:E; auto. destruct (mi_no HI v (mi_all HI Hv) E) as (u & A & B & C). rewrite (H u A B) in C. discriminate.
  Qed.
End Rootset.

(* -- the speculative loop -------------------------------------------------------------------- *)
Section Spec.
  Variable n : nat.
  Variable outn : nat -> list nat.
  Notation loop := (eff_loop (mi_spec_round outn) 0 n 50 None (fun _ => 0)).

  Record SI (done : nat) (K : list nat) (fl : nat -> nat) : Prop := {
    si_sorted : StronglySorted lt K;
    si_lt : forall v, In v K -> v < done + length K;
    si_n : done + length K <= n;
    si_sz : length K <= max_round 0 n 50;
    si_0 : forall v, fl v = 0 <-> In v K \/ done + length K <= v;
    si_1 : forall v u, fl v = 1 -> In u (outn v) -> u < v -> fl u = 2;
    si_2 : forall v, fl v <> 0 -> fl v <> 1 -> fl v = 2 /\ exists u, In u (outn v) /\ u < v /\ fl u = 1 }.

  Lemma kept_map (f : nat -> bool) (I : list nat) : kept I (map f I) = filter f I.
  Proof. unfold kept. induction I as [|x I IH]; simpl; auto. destruct (f x); simpl; now rewrite IH. Qed.
  Lemma sorted_filter (f : nat -> bool) l : StronglySorted lt l -> StronglySorted lt (filter f l).
  Proof.
    induction 1 as [|x l Hs IH Hf]; simpl; [constructor|]. destruct (f x); auto. constructor; auto. rewrite Forall_forall in *. intros y Hy. apply filter_In in Hy as [Hy _]. auto.
  Qed.
  Lemma sorted_seq k : forall a, StronglySorted lt (seq a k).
  Proof. induction k as [|k IH]; intros a; simpl; constructor; auto. apply Forall_forall. intros x Hx. apply in_seq in Hx. lia. Qed.
  Lemma sorted_app l1 l2 : StronglySorted lt l1 -> StronglySorted lt l2 -> (forall x y, In x l1 -> In y l2 -> x < y) -> StronglySorted lt (l1 ++ l2).
  Proof.
    induction 1 as [|x l Hs IH Hf]; intros H2 H; simpl; auto. constructor; [apply IH; auto; intros; apply H; auto; now right|].
    apply Forall_app. split; auto. apply Forall_forall. intros y Hy. apply H; auto. now left.
  Qed.
  Lemma filter_pos {A} (f : A -> bool) l : (0 <? length (filter f l)) = true <-> exists x, In x l /\ f x = true.
  Proof.
    rewrite Nat.ltb_lt. destruct (filter f l) as [|x l'] eqn:E; simpl.
    - split; [lia|]. intros (x & Hx & Ef). assert (In x []) as []. rewrite <- E. apply filter_In. auto.
    - split; [|lia]. intros _. exists x. apply filter_In. rewrite E. now left.
  Qed.
  Lemma reserve_spec fl i :
    (mi_reserve outn fl i = 2 /\ exists u, In u (outn i) /\ u < i /\ fl u = 1) \/
    (mi_reserve outn fl i = 0 /\ exists u, In u (outn i) /\ u < i /\ fl u = 0) \/
    (mi_reserve outn fl i = 1 /\ forall u, In u (outn i) -> u < i -> fl u <> 1 /\ fl u <> 0).
  Proof.
    unfold mi_reserve. destruct (0 <? length (filter (fun u => (u <? i) && (fl u =? 1)) (outn i))) eqn:E1.
    - apply filter_pos in E1 as (u & Hu & E). apply andb_true_iff in E as [A B]. apply Nat.ltb_lt in A. apply Nat.eqb_eq in B. left. split; eauto.
    - destruct (0 <? length (filter (fun u => (u <? i) && (fl u =? 0)) (outn i))) eqn:E2.
      + apply filter_pos in E2 as (u & Hu & E). apply andb_true_iff in E as [A B]. apply Nat.ltb_lt in A. apply Nat.eqb_eq in B. right; left. split; eauto.
      + right; right. split; auto. intros u Hu Hl. split; intros X.
        * assert (Y : (0 <? length (filter (fun u => (u <? i) && (fl u =? 1)) (outn i))) = true); [|congruence].
          apply filter_pos. exists u. split; auto. apply andb_true_iff. rewrite Nat.ltb_lt, Nat.eqb_eq. auto.
        * assert (Y : (0 <? length (filter (fun u => (u <? i) && (fl u =? 0)) (outn i))) = true); [|congruence].
          apply filter_pos. exists u. split; auto. apply andb_true_iff. rewrite Nat.ltb_lt, Nat.eqb_eq. auto.
  Qed.

  Lemma si_start : SI 0 [] (fun _ => 0).
  Proof.
    constructor; simpl; try tauto; try discriminate; try lia.
    constructor.
  Qed.
  Lemma si_round done K fl fl' keep : SI done K fl -> done < n ->
    let sz := Nat.min (max_round 0 n 50) (n - done) in let I := firstn sz K ++ seq (done + length K) (sz - length K) in
    mi_spec_round outn I fl fl' keep ->
    length keep = sz /\ length (kept I keep) < sz /\ SI (done + (sz - length (kept I keep))) (kept I keep) fl'.
  Proof.
    intros HI Hd sz I [Hfl Hk]. pose proof (si_n HI) as Hn. pose proof (si_sz HI) as Hsz.
    assert (Hmx : 1 <= max_round 0 n 50) by (unfold max_round; lia).
    assert (Hle : length K <= sz) by (unfold sz; lia). assert (Hsz1 : 1 <= sz) by (unfold sz; lia).
    assert (EI : I = K ++ seq (done + length K) (sz - length K)) by (unfold I; now rewrite firstn_all2).
    clearbody I. subst I. set (I := K ++ seq (done + length K) (sz - length K)) in *.
    assert (HIin : forall v, In v I <-> In v K \/ done + length K <= v < done + sz) by (intros v; unfold I; rewrite in_app_iff, in_seq; intuition lia).
    assert (HIl : length I = sz) by (unfold I; rewrite app_length, seq_length; lia).
    assert (HIs : StronglySorted lt I).
    { apply sorted_app; [apply HI|apply sorted_seq|]. intros x y Hx Hy. apply in_seq in Hy. pose proof (si_lt HI x Hx). lia. }
    assert (HI0 : forall v, In v I -> fl v = 0) by (intros v Hv; apply (si_0 HI); apply HIin in Hv; intuition lia).
    assert (Hmem : forall v, existsb (Nat.eqb v) I = true <-> In v I) by (intros v; apply mem_In).
    assert (Hno : forall v, fl v <> 0 -> fl' v = fl v).
    { intros v Hv. rewrite Hfl. destruct (existsb (Nat.eqb v) I) eqn:E; auto. apply Hmem, HI0 in E. contradiction. }
    assert (EK : kept I keep = filter (fun i => negb (0 <? mi_reserve outn fl i)) I) by (rewrite Hk; apply kept_map).
    rewrite EK. set (K' := filter (fun i => negb (0 <? mi_reserve outn fl i)) I).
    assert (HK' : forall v, In v K' <-> In v I /\ mi_reserve outn fl v = 0).
    { intros v. unfold K'. rewrite filter_In, negb_true_iff, Nat.ltb_ge. intuition lia. }
    assert (HKle : length K' <= sz) by (unfold K'; rewrite <- HIl; apply filter_len_le).
    split; [now rewrite Hk, map_length|]. split.
    { (* the first iteration succeeds *)
      destruct I as [|i0 I'] eqn:Ei; [simpl in HIl; lia|]. unfold K'. cbn [filter].
      assert (Hr : mi_reserve outn fl i0 <> 0).
      { destruct (reserve_spec fl i0) as [[-> _]|[[_ (u & Hu & Hlt & H0)]|[-> _]]]; try lia. exfalso.
        apply (si_0 HI) in H0. assert (Hui : In u (i0 :: I')).
        { apply HIin. destruct H0 as [H0|H0]; auto. right. split; auto. assert (In i0 (i0 :: I')) as X by now left. apply HIin in X. destruct X as [X|X]; [|lia].
          pose proof (si_lt HI i0 X). lia. }
        inversion HIs; subst. rewrite Forall_forall in *. destruct Hui as [->|Hui]; [lia|]. specialize (H3 u Hui). lia. }
      destruct (Nat.ltb_spec 0 (mi_reserve outn fl i0)); [|lia]. cbn [negb]. simpl in HIl. pose proof (filter_len_le (fun i => negb (0 <? mi_reserve outn fl i)) I'). lia. }
    assert (Esum : done + (sz - length K') + length K' = done + sz) by lia.
    constructor.
    - apply sorted_filter; auto.
    - intros v Hv. rewrite Esum. apply HK' in Hv as [Hv _]. apply HIin in Hv as [Hv|Hv]; [pose proof (si_lt HI v Hv)|]; lia.
    - rewrite Esum. unfold sz. lia.
    - unfold sz in *. lia.
    - intros v. rewrite Esum, HK', Hfl. destruct (existsb (Nat.eqb v) I) eqn:E.
      + apply Hmem in E. split; [auto|]. intros [[_ H]|H]; auto. apply HIin in E as [E|E]; [pose proof (si_lt HI v E)|]; lia.
      + assert (~ In v I) by (intros X; apply Hmem in X; congruence). rewrite (si_0 HI). rewrite HIin in *. split; intros; intuition lia.
    - intros v u. rewrite Hfl. destruct (existsb (Nat.eqb v) I) eqn:E.
      + intros H1 Hu Hlt. destruct (reserve_spec fl v) as [[X _]|[[X _]|[X Hall]]]; try congruence. destruct (Hall u Hu Hlt) as [A B].
        rewrite Hno by auto. now apply (si_2 HI).
      + intros H1 Hu Hlt. pose proof (si_1 HI H1 Hu Hlt) as X. rewrite Hno; auto. lia.
    - intros v. rewrite Hfl. destruct (existsb (Nat.eqb v) I) eqn:E.
      + intros H0 H1. destruct (reserve_spec fl v) as [[X (u & Hu & Hlt & H)]|[[X _]|[X _]]]; try congruence. split; auto.
        exists u. split; auto. split; auto. rewrite Hno; auto. lia.
      + intros H0 H1. destruct (si_2 HI v H0 H1) as [X (u & Hu & Hlt & H)]. split; auto. exists u. split; auto. split; auto. rewrite Hno; auto. lia.
  Qed.
  Lemma si_loop r done K fl : loop r done K fl -> SI done K fl.
  Proof.
    induction 1 as [|r done K fl fl' keep HL IH Hd Ht sz I Hr Hl]; [apply si_start|]. now apply (si_round IH Hd Hr).
  Qed.
  Lemma spec_step r done K fl : loop r done K fl -> done < n -> exists done' K' fl', done < done' /\ loop (S r) done' K' fl'.
  Proof.
    intros HL Hd. pose proof (si_loop HL) as HI. set (sz := Nat.min (max_round 0 n 50) (n - done)). set (I := firstn sz K ++ seq (done + length K) (sz - length K)).
    set (fl' := fun v => if existsb (Nat.eqb v) I then mi_reserve outn fl v else fl v).
    assert (Hr : mi_spec_round outn I fl fl' (map (fun i => negb (0 <? mi_reserve outn fl i)) I)) by (split; auto).
    destruct (si_round HI Hd Hr) as (A & B & _). fold sz in A, B. fold I in B.
    eexists _, _, _. split; [|eapply eff_round; eauto]. fold sz I. lia.
  Qed.
  Lemma spec_from k : forall r done K fl, n <= done + k -> loop r done K fl -> exists fl', spec_mis_returns n outn fl'.
  Proof.
    induction k as [|k IH]; intros r done K fl Hk HL; [exists fl, r, done, K; split; auto; lia|].
    destruct (Nat.lt_ge_cases done n) as [Hd|Hd]; [|exists fl, r, done, K; auto]. destruct (spec_step HL Hd) as (d' & K' & fl' & Hlt & HL'). eapply IH; [|exact HL']. lia.
  Qed.
  Lemma spec_greedy fl : spec_mis_returns n outn fl -> (forall v, v < n -> fl v = 1 \/ fl v = 2) /\ greedy_set n outn (fun v => v) (fun v => fl v =? 1).
  Proof.
    intros (r & done & K & HL & Hd). pose proof (si_loop HL) as HI. pose proof (si_n HI). assert (K = []) as -> by (destruct K; auto; simpl in *; lia). simpl in *.
    assert (H0 : forall v, v < n -> fl v <> 0) by (intros v Hv X; apply (si_0 HI) in X; simpl in X; destruct X as [[]|X]; lia).
    split.
    - intros v Hv. destruct (Nat.eq_dec (fl v) 1); auto. right. apply (si_2 HI); auto.
    - intros v Hv. split.
      + intros E u Hu Hlt. apply Nat.eqb_eq in E. rewrite (si_1 HI E Hu Hlt). reflexivity.
      + intros H1. apply Nat.eqb_eq. destruct (Nat.eq_dec (fl v) 1); auto. destruct (si_2 HI v (H0 v Hv) n0) as [_ (u & Hu & Hlt & E)].
        specialize (H1 u Hu Hlt). rewrite E in H1. discriminate.
  Qed.
End Spec.
