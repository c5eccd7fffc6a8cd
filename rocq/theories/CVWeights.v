(* Proofs for C65: the number of sets chosen. *)
From Coq Require Import QArith Lqa.
From Verif Require Import Base ListUtil BKModel BKSpec BKProofs CVModel CVSpec CVBuckets CVProofs.
Local Open Scope nat_scope.
Unset Strict Implicit.

Notation qn k := (inject_Z (Z.of_nat k)).
Lemma qn_plus a b : (qn (a + b) == qn a + qn b)%Q.
Proof. rewrite Nat2Z.inj_add, inject_Z_plus. reflexivity. Qed.
Lemma qn_le a b : a <= b -> (qn a <= qn b)%Q.
Proof. intros H. rewrite <- Zle_Qle. lia. Qed.
Lemma qn_S a : (qn (S a) == qn a + 1)%Q.
Proof. replace (S a) with (a + 1) by lia. apply qn_plus. Qed.
Lemma qn_pos a : 1 <= a -> (1 <= qn a)%Q.
Proof. intros H. apply (qn_le H). Qed.
Lemma qn_0 a : (0 <= qn a)%Q.
Proof. apply (@qn_le 0 a). lia. Qed.

Lemma qsum_app l m : (qsum (l ++ m) == qsum l + qsum m)%Q.
Proof. unfold qsum. induction l as [|x l IH]; simpl; [lra|]. rewrite IH. lra. Qed.
Lemma qsum_le {T} (f g : T -> Q) l : (forall x, In x l -> f x <= g x)%Q -> (qsum (map f l) <= qsum (map g l))%Q.
Proof.
  unfold qsum. induction l as [|x l IH]; intros H; simpl; [lra|]. pose proof (H x (or_introl eq_refl)) as H1.
  specialize (IH (fun y Hy => H y (or_intror Hy))). lra.
Qed.
Lemma qsum_incl (w : nat -> Q) l : (forall v, 0 <= w v)%Q -> NoDup l -> forall m, incl l m -> (qsum (map w l) <= qsum (map w m))%Q.
Proof.
  intros Hw. induction l as [|x l IH]; intros Hnd m Hi.
  - simpl. clear Hi. induction m as [|y m IHm]; simpl; [lra|]. specialize (Hw y). simpl in *. lra.
  - inversion Hnd as [|? ? N1 N2]; subst. destruct (in_split x m (Hi x (or_introl eq_refl))) as (m1 & m2 & ->).
    assert (Hi' : incl l (m1 ++ m2)).
    { intros y Hy. specialize (Hi y (or_intror Hy)). apply in_app_iff in Hi as [H|[H|H]]; apply in_app_iff; auto. subst. tauto. }
    specialize (IH N2 _ Hi'). rewrite !map_app in *. rewrite !qsum_app in *. simpl. lra.
Qed.

(* adding a price to the elements of p, whose weight was 0 *)
Lemma qsum_add (w : nat -> Q) (p : nat -> bool) (x : Q) l : (forall v, In v l -> p v = true -> w v == 0)%Q ->
  (qsum (map (fun v => if p v then x else w v) l) == qsum (map w l) + qn (length (filter p l)) * x)%Q.
Proof.
  unfold qsum. induction l as [|v l IH]; intros H.
  - simpl. change (inject_Z 0) with 0%Q. ring.
  - simpl. rewrite IH by (intros; apply H; auto; now right). destruct (p v) eqn:E; simpl length.
    + rewrite (H v (or_introl eq_refl) E), qn_S. lra.
    + lra.
Qed.

Lemma harmonic_0 k : (0 <= harmonic k)%Q.
Proof.
  induction k as [|k IH]; simpl; [lra|]. change (Z.pos (Pos.of_succ_nat k)) with (Z.of_nat (S k)).
  pose proof (@qn_pos (S k) ltac:(lia)) as H. assert (X : (0 <= 1 / qn (S k))%Q) by (apply Qle_shift_div_l; lra). lra.
Qed.
Lemma harmonic_drop k : forall r (x kappa : Q), k <= r -> (0 <= kappa)%Q -> (x * qn r <= kappa)%Q -> (0 <= x)%Q ->
  (qn k * x <= kappa * (harmonic r - harmonic (r - k)))%Q.
Proof.
  induction k as [|k IH]; intros r x kappa Hk H0 Hx Hx0.
  - rewrite Nat.sub_0_r. change (qn 0) with 0%Q. lra.
  - specialize (IH r x kappa ltac:(lia) H0 Hx Hx0).
    assert (E : harmonic (r - k) = (harmonic (r - S k) + 1 / qn (r - k))%Q).
    { replace (r - k) with (S (r - S k)) at 1 by lia. cbn [harmonic]. now replace (S (r - S k)) with (r - k) by lia. }
    rewrite E in IH. rewrite qn_S. set (y := qn (r - k)) in *.
    assert (Hy : (1 <= y)%Q) by (apply qn_pos; lia).
    assert (Hyr : (y <= qn r)%Q) by (apply qn_le; lia).
    assert (X : (x <= kappa * (1 / y))%Q).
    { assert (X1 : (kappa * (1 / y) == kappa / y)%Q) by (field; lra). rewrite X1. apply Qle_shift_div_l; [lra|].
      assert (x * y <= x * qn r)%Q by nra. lra. }
    nra.
Qed.

Section W.
  Variables n o null cov : nat.
  Variables bkt thr low : nat -> nat.
  Variable nbr : nat -> list nat.
  Variable kappa : Q.
  Hypothesis Ho : 0 < o.
  Hypothesis Hcov : n <= cov < null.
  Hypothesis Hlv : levels bkt thr low.
  Hypothesis Hfit : forall v, v < n -> bkt (length (nbr v)) < null.
  Hypothesis Hst : steep bkt low kappa.
  Hypothesis Hnd : forall u, u < n -> NoDup (nbr u).
  Hypothesis Hin : forall u v, u < n -> In v (nbr u) -> v < n.
  Notation INV := (INV n o null cov bkt nbr).

  Lemma kappa_1 : (1 <= kappa)%Q.
  Proof.
    pose proof (Hst (le_n 1) (le_n (bkt 1))) as H. pose proof (lv_low Hlv (bkt 1)) as [H1 H2].
    assert (H3 : thr (bkt 1) <= 1) by (apply (lv_thr Hlv); auto). assert (low (bkt 1) = 1) as E by lia. rewrite E in H.
    change (qn 1) with 1%Q in H. lra.
  Qed.

  Definition uncov (el : nat -> nat) (u : nat) : nat := length (filter (fun v => negb (el v =? cov)) (nbr u)).
  Record WT (s : cst) (w : nat -> Q) : Prop := {
    w_pos : forall v, (0 <= w v)%Q;
    w_zero : forall v, c_el s v = null -> (w v == 0)%Q;
    w_total : (qn (length (c_cover s)) <= qsum (map w (seq 0 n)))%Q;
    w_out : forall u, u < n -> ~ In u (c_cover s) ->
      (qsum (map w (nbr u)) <= kappa * (harmonic (length (nbr u)) - harmonic (uncov (c_el s) u)))%Q;
    w_in : forall u, u < n -> In u (c_cover s) ->
      (qsum (map w (nbr u)) + qn (uncov (c_el s) u) <= kappa * harmonic (length (nbr u)) + (1 - 1 / kappa) * qn (length (nbr u)))%Q
  }.

  Section One.
    Variable s : cst.
    Variable due : nat -> bool.
    Hypothesis I : INV s due.
    Variables fuel b : nat.
    Variable L : list nat.
    Variable bk' : bst.
    Hypothesis Hnext : next_bucket false o fuel (c_D s) (c_bk s) = Ret (Some (b, L)) bk'.
    Variable P : list nat.
    Notation nb1 := (nb1 cov s L).
    Notation AA := (AA cov thr s b L).
    Hypothesis HP : Permutation P (seq 0 (length AA)).
    Variables es2 es4 : list (nat * nat).
    Hypothesis H2 : Permutation es2 (out_edges AA nb1).
    Hypothesis H4 : Permutation es4 (out_edges AA nb1).
    Notation pm := (pm cov thr s b L P).
    Notation el2 := (el2 cov thr s b L P es2).
    Notation CC := (CC cov thr low s b L P es2).
    Notation el3 := (el3 null cov bkt thr low s b L P es2 es4).
    Definition s1 := s' o null cov bkt thr low s b L bk' P es2 es4.
    Variable w : nat -> Q.
    Hypothesis HW : WT s w.

    Definition new (v : nat) : bool := (c_el s v =? null) && (el3 v =? cov).
    Definition price : Q := 1 / qn (low b).
    Definition w' (v : nat) : Q := if new v then price else w v.

    Lemma low_pos : (1 <= qn (low b))%Q.
    Proof. apply qn_pos. apply (lv_low Hlv). Qed.
    Lemma price_pos : (0 <= price)%Q.
    Proof. unfold price. pose proof low_pos. apply Qle_shift_div_l; lra. Qed.
    Lemma price_1 : (price <= 1)%Q.
    Proof. unfold price. pose proof low_pos. apply Qle_shift_div_r; lra. Qed.
    Lemma price_low : (price * qn (low b) == 1)%Q.
    Proof. unfold price. pose proof low_pos. field. lra. Qed.

    Lemma w'_sum l : (qsum (map w' l) == qsum (map w l) + qn (length (filter new l)) * price)%Q.
    Proof.
      apply qsum_add. intros v _ E. apply andb_prop in E as [E _]. apply Nat.eqb_eq in E. now apply (w_zero HW).
    Qed.

    (* the elements a set wins *)
    Definition wins (u : nat) : list nat := filter (fun v => el2 v =? pm u) (nb1 u).
    Lemma CA u : In u CC -> In u AA /\ low b <= length (wins u).
    Proof. apply C_A. Qed.
    Lemma wins_new u v : In u CC -> In v (wins u) -> new v = true /\ In v (nbr u).
    Proof.
      intros Hu Hv. apply filter_In in Hv as [Hv E]. apply Nat.eqb_eq in E. pose proof (CA Hu) as [Ha _].
      pose proof (A_L Ha) as [HL _]. pose proof (nb1_unc Hcov I HL Hv) as E0.
      split; [|apply (i_sub I), (nb1_incl Hv)]. unfold new. rewrite E0, Nat.eqb_refl. simpl. apply Nat.eqb_eq.
      rewrite (el3_own low Ho Hcov I Hnext HP H4 Ha Hv E). assert (X : D2 null cov bkt thr low s b L P es2 u = null).
      { apply (D2_A Ho Hcov Hlv Hfit I Hnext P es2 Ha). auto. }
      now rewrite X, Nat.eqb_refl.
    Qed.
    Lemma wins_nodup u : In u CC -> NoDup (wins u).
    Proof.
      intros Hu. apply NoDup_filter'. pose proof (CA Hu) as [Ha _]. pose proof (A_L Ha) as [HL _].
      assert (X : NoDup (c_nb s u)) by (apply (i_nodup I), Hnd; now apply (L_lt Ho I Hnext)).
      rewrite (nb1_in cov s HL). now apply NoDup_filter'.
    Qed.
    Lemma all_wins : NoDup (flat_map wins CC) /\ length CC * low b <= length (flat_map wins CC).
    Proof.
      assert (X : forall l, incl l CC -> NoDup l -> NoDup (flat_map wins l) /\ length l * low b <= length (flat_map wins l)).
      { induction l as [|u l IH]; intros Hi Hn; [simpl; split; [constructor|lia]|]. inversion Hn as [|? ? N1 N2]; subst.
        assert (Hu : In u CC) by (apply Hi; now left). destruct IH as [IH1 IH2]; auto; [intros x Hx; apply Hi; now right|].
        split; simpl.
        - apply NoDup_app_iff. split; [now apply wins_nodup|]. split; auto. intros v Hv Hf. apply in_flat_map in Hf as (x & Hx & Hf).
          apply filter_In in Hv as [_ Hv], Hf as [_ Hf]. apply Nat.eqb_eq in Hv, Hf. assert (u = x); [|congruence].
          apply (pm_inj Ho Hcov I Hnext HP); [now apply CA in Hu|apply (CA (Hi x (or_intror Hx)))|congruence].
        - rewrite app_length. pose proof (CA Hu). lia. }
      apply X; [apply incl_refl|]. apply (C_nodup thr low Ho I Hnext).
    Qed.
    Lemma new_total : length CC * low b <= length (filter new (seq 0 n)).
    Proof.
      destruct all_wins as [A B]. eapply Nat.le_trans; [exact B|]. apply NoDup_incl_length; auto.
      intros v Hv. apply in_flat_map in Hv as (u & Hu & Hv). destruct (wins_new Hu Hv) as [Hn Hb]. apply filter_In. split; auto.
      apply in_seq. pose proof (CA Hu) as [Ha _]. pose proof (A_L Ha) as [HL _]. pose proof (Hin (L_lt Ho I Hnext HL) Hb). lia.
    Qed.

    Lemma uncov_after u : uncov (c_el s) u = uncov el3 u + length (filter new (nbr u)).
    Proof.
      unfold uncov. induction (nbr u) as [|v l IH]; simpl; auto.
      assert (En : new v = (c_el s v =? null) && (el3 v =? cov)) by reflexivity. rewrite En. clear En.
      destruct (i_el I v) as [E|E].
      - rewrite (el3_cov low Ho Hcov I Hnext HP es2 H4 E), E, Nat.eqb_refl. simpl.
        destruct (Nat.eqb_spec cov null); [lia|]. simpl. exact IH.
      - rewrite E, Nat.eqb_refl. destruct (Nat.eqb_spec null cov); [lia|]. simpl.
        destruct (el3_two Ho Hcov Hlv Hfit I Hnext HP H2 H4 v) as [E3|E3]; rewrite E3, ?Nat.eqb_refl.
        + simpl. rewrite IH. lia.
        + destruct (Nat.eqb_spec null cov); [lia|]. simpl. rewrite IH. lia.
    Qed.
    Lemma uncov_due u : u < n -> due u = true -> (qn (uncov (c_el s) u) <= kappa * qn (low b))%Q.
    Proof.
      intros Hu Hd. destruct (i_due I Hd) as (_ & Hne & Ed).
      assert (Hl : uncov (c_el s) u <= length (c_nb s u)).
      { apply NoDup_incl_length; [now apply NoDup_filter', Hnd|]. intros v Hv. apply filter_In in Hv as [Hv E].
        apply negb_true_iff, Nat.eqb_neq in E. apply (i_keep I); auto. destruct (i_el I v); tauto. }
      destruct (L_facts Ho I Hnext) as (_ & _ & _ & LB & _). specialize (LB u Hd). rewrite Ed in LB.
      assert (1 <= length (c_nb s u)) by (destruct (c_nb s u); simpl; [congruence|lia]).
      pose proof (Hst H LB) as X. pose proof (qn_le Hl). lra.
    Qed.

    Lemma out_sum u : u < n -> ~ In u (c_cover s) ->
      (qsum (map w' (nbr u)) <= kappa * (harmonic (length (nbr u)) - harmonic (uncov el3 u)))%Q.
    Proof.
      intros Hu Hc. rewrite w'_sum. pose proof (w_out HW Hu Hc) as H. pose proof (uncov_after u) as E.
      set (k := length (filter new (nbr u))) in *. set (r := uncov (c_el s) u) in *.
      destruct (Nat.eq_dec k 0) as [K0|K0].
      - rewrite K0 in *. replace (uncov el3 u) with r by lia. change (qn 0) with 0%Q. lra.
      - assert (Hd : due u = true).
        { destruct (due u) eqn:Ed; auto. exfalso. destruct (i_not I Hu Ed) as [X|X]; [tauto|].
          assert (r = 0); [|lia]. unfold r, uncov. rewrite filter_none; auto. intros v Hv. rewrite (X v Hv), Nat.eqb_refl. reflexivity. }
        pose proof (uncov_due Hu Hd) as X. fold r in X. pose proof kappa_1. pose proof price_pos. pose proof low_pos. pose proof price_low.
        assert (Hpr : (price * qn r <= kappa)%Q).
        { assert (price * qn r <= price * (kappa * qn (low b)))%Q by nra. nra. }
        pose proof (@harmonic_drop k r price kappa ltac:(lia) ltac:(lra) Hpr price_pos) as Y.
        replace (uncov el3 u) with (r - k) by lia. lra.
    Qed.

    Lemma round_wt : WT s1 w'.
    Proof.
      constructor; unfold s1, CVProofs.s', round_with; simpl c_el; simpl c_cover.
      - intros v. unfold w'. destruct (new v); [exact price_pos|apply (w_pos HW)].
      - intros v E. change (el3 v = null) in E. unfold w', new. rewrite E. destruct (Nat.eqb_spec null cov); [lia|]. rewrite andb_false_r.
        apply (w_zero HW). apply (el3_null Ho Hcov I Hnext HP H4 E).
      - change (qn (length (c_cover s ++ CC)) <= qsum (map w' (seq 0 n)))%Q. rewrite app_length, qn_plus, w'_sum.
        pose proof (w_total HW) as H. pose proof (qn_le new_total) as Y. rewrite Nat2Z.inj_mul, inject_Z_mult in Y.
        pose proof price_low. pose proof price_pos. pose proof low_pos.
        assert (qn (length CC) == qn (length CC) * qn (low b) * price)%Q by (rewrite <- Qmult_assoc, (Qmult_comm (qn (low b))), price_low; lra).
        assert (qn (length CC) * qn (low b) * price <= qn (length (filter new (seq 0 n))) * price)%Q by nra. lra.
      - intros u Hu Hc. apply out_sum; auto. intros X. apply Hc, in_app_iff. auto.
      - intros u Hu Hc. change (qsum (map w' (nbr u)) + qn (uncov el3 u) <= kappa * harmonic (length (nbr u)) + (1 - 1 / kappa) * qn (length (nbr u)))%Q.
        change (In u (c_cover s ++ CC)) in Hc. pose proof (uncov_after u) as E. pose proof kappa_1 as K1.
        destruct (in_dec Nat.eq_dec u (c_cover s)) as [Ho'|Hn'].
        + pose proof (w_in HW Hu Ho') as H. rewrite w'_sum. rewrite E, qn_plus in H. pose proof price_1. pose proof price_pos.
          pose proof (@qn_0 (length (filter new (nbr u)))). nra.
        + apply in_app_iff in Hc as [Hc|Hc]; [tauto|]. pose proof (out_sum Hu Hn') as H.
          pose proof (@harmonic_0 (uncov el3 u)) as H0.
          assert (Hk : low b <= length (filter new (nbr u))).
          { pose proof (CA Hc) as [_ X]. eapply Nat.le_trans; [exact X|]. apply NoDup_incl_length; [now apply wins_nodup|].
            intros v Hv. destruct (wins_new Hc Hv). apply filter_In. auto. }
          pose proof (CA Hc) as [Ha _]. pose proof (A_L Ha) as [HL _]. destruct (L_facts Ho I Hnext) as (_ & _ & LI & _).
          apply LI in HL as [Hd _]. pose proof (uncov_due Hu Hd) as X. rewrite E in X. rewrite qn_plus in X.
          pose proof (qn_le Hk) as Y.
          assert (Hr : uncov (c_el s) u <= length (nbr u)) by apply filter_len_le. rewrite E in Hr. apply qn_le in Hr. rewrite qn_plus in Hr.
          set (a := qn (uncov el3 u)) in *. set (k := qn (length (filter new (nbr u)))) in *. set (d := qn (length (nbr u))) in *. set (lb := qn (low b)) in *.
          assert (Z : (a <= (1 - 1 / kappa) * (a + k))%Q).
          { assert (Z1 : ((1 - 1 / kappa) * (a + k) == (a + k) - (a + k) / kappa)%Q) by (field; lra). rewrite Z1.
            assert ((a + k) / kappa <= k)%Q; [|lra]. apply Qle_shift_div_r; [lra|]. nra. }
          assert (Z2 : (0 <= 1 - 1 / kappa)%Q). { assert (1 / kappa <= 1)%Q by (apply Qle_shift_div_r; lra). lra. }
          nra.
    Qed.
  End One.
End W.
