(* Proofs for C65: whole runs, the exact level functions, and the limits. *)
From Coq Require Import QArith Lqa ZArith.
From Verif Require Import Base ListUtil BKModel BKSpec BKProofs CVModel CVSpec CVBuckets CVProofs CVWeights.
Local Open Scope nat_scope.
Unset Strict Implicit.

Section Runs.
  Variables n o null cov : nat.
  Variables bkt thr low : nat -> nat.
  Variable nbr : nat -> list nat.
  Hypothesis Ho : 0 < o.
  Hypothesis Hcov : n <= cov < null.
  Hypothesis Hlv : levels bkt thr low.
  Hypothesis Hfit : forall v, v < n -> bkt (length (nbr v)) < null.
  Notation INV := (INV n o null cov bkt nbr).
  Notation loop := (cv_loop n o null cov bkt thr low nbr).
  Notation D0 := (D0 n null bkt nbr).
  Notation due0 := (fun v => (v <? n) && (D0 v <? null)).

  Lemma D0_le v : D0 v <= null.
  Proof. unfold CVModel.D0, clamp. destruct (Nat.ltb_spec v n); auto. destruct (length (nbr v) =? 0); auto. specialize (Hfit H). lia. Qed.
  Lemma D0_out v : n <= v -> D0 v = null.
  Proof. intros H. unfold CVModel.D0. destruct (Nat.ltb_spec v n); auto. lia. Qed.
  Lemma D0_lt v : D0 v < null <-> v < n /\ nbr v <> [].
  Proof.
    unfold CVModel.D0, clamp. destruct (Nat.ltb_spec v n) as [H|H]; [|split; [lia|intros []; lia]].
    destruct (Nat.eqb_spec (length (nbr v)) 0) as [E|E].
    - split; [lia|]. intros [_ X]. apply length_zero_iff_nil in E. tauto.
    - specialize (Hfit H). split; [|tauto]. intros _. split; auto. intros X. rewrite X in E. now apply E.
  Qed.

  Lemma start_inv perm0 : (exists i, i < n /\ nbr i <> []) -> INV (start n o null bkt nbr perm0) due0.
  Proof.
    intros (i & Hi & Hne). constructor; simpl; auto.
    - destruct (@BKI_make o null n Ho D0 D0_le D0_out) as (t & last & H); [|eauto]. exists i. split; auto. now apply D0_lt.
    - intros u. apply incl_refl.
    - intros u Hu. apply andb_prop in Hu as [H1 H2]. apply Nat.ltb_lt in H1, H2. apply D0_lt in H2 as [_ H2]. split; auto. split; auto.
      unfold CVModel.D0, clamp. rewrite (proj2 (Nat.ltb_lt u n) H1). destruct (Nat.eqb_spec (length (nbr u)) 0); auto.
      apply length_zero_iff_nil in e. tauto.
    - intros u Hu Hd. right. intros v Hv. exfalso. assert (X : due0 u = true); [|congruence]. simpl.
      rewrite (proj2 (Nat.ltb_lt u n) Hu). simpl. apply Nat.ltb_lt, D0_lt. split; auto. intros E. rewrite E in Hv. destruct Hv.
    - intros v E. lia.
    - constructor.
    - tauto.
  Qed.

  (* the runs on a graph with an edge *)
  Lemma loop_inv perm0 k s : (exists i, i < n /\ nbr i <> []) -> loop perm0 k s ->
    exists due, INV s due /\ k + load n (c_D s) due <= load n D0 due0.
  Proof.
    intros He. induction 1 as [|k s s2 _ (due & I & Hl) Hr].
    - exists due0. split; [now apply start_inv|]. simpl. lia.
    - destruct Hr as [s fuel b L bk' P es2 es4 Hn nb A HP H2 H4].
      exists (due' null cov bkt thr low s due b L P es2). split.
      + exact (round_inv Ho Hcov Hlv Hfit I Hn HP H2 H4).
      + pose proof (round_load Ho Hcov Hlv Hfit I Hn HP H2 H4) as X. unfold s' in X. lia.
  Qed.
  Lemma loop_start perm0 k s : (forall i, i < n -> nbr i = []) -> loop perm0 k s -> k = 0 /\ s = start n o null bkt nbr perm0.
  Proof.
    intros He. induction 1 as [|k s s2 _ [-> ->] Hr]; auto. exfalso.
    inversion Hr as [s fuel b L bk' P es2 es4 Hn nb A HP H2 H4 E1 E2]; subst. simpl in Hn.
    destruct fuel as [|fuel]; [discriminate|]. rewrite make_none in Hn; [discriminate|].
    intros j. pose proof (D0_le j). destruct (Nat.eq_dec (D0 j) null); auto. assert (X : D0 j < null) by lia. apply D0_lt in X as [X Y].
    elim Y. auto.
  Qed.
  Lemma edges_dec : (exists i, i < n /\ nbr i <> []) \/ (forall i, i < n -> nbr i = []).
  Proof.
    destruct (existsb (fun i => negb (length (nbr i) =? 0)) (seq 0 n)) eqn:E.
    - left. apply existsb_exists in E as (i & Hi & E). apply in_seq in Hi. exists i. split; [lia|]. intros X. rewrite X in E. discriminate.
    - right. intros i Hi. destruct (nbr i) as [|x l] eqn:En; auto. exfalso.
      assert (X : existsb (fun i => negb (length (nbr i) =? 0)) (seq 0 n) = true); [|congruence].
      apply existsb_exists. exists i. split; [apply in_seq; lia|]. now rewrite En.
  Qed.

  Lemma rounds_bound perm0 k s : loop perm0 k s -> k <= load n D0 due0.
  Proof.
    intros H. destruct edges_dec as [He|He].
    - destruct (loop_inv He H) as (due & _ & X). lia.
    - destruct (loop_start He H) as [-> _]. lia.
  Qed.
  Lemma step_or_end perm0 k s : loop perm0 k s ->
    (exists fuel bk', next_bucket false o fuel (c_D s) (c_bk s) = Ret None bk') \/
    (exists s2, cv_round o null cov bkt thr low s s2).
  Proof.
    intros H. destruct edges_dec as [He|He].
    - destruct (loop_inv He H) as (due & I & _). destruct (i_bk I) as (t & last & HB).
      destruct (BKI_ends Ho HB) as (fuel & [[b L]|] & bk' & E); [right|left; eauto].
      eexists. apply (@cv_round_intro o null cov bkt thr low s fuel b L bk' _ _ _ E (Permutation_refl _) (Permutation_refl _) (Permutation_refl _)).
    - left. destruct (loop_start He H) as [_ ->]. exists 1. eexists. simpl c_D. simpl c_bk. rewrite make_none; [reflexivity|].
      intros j. pose proof (D0_le j). destruct (Nat.eq_dec (D0 j) null); auto. assert (X : D0 j < null) by lia. apply D0_lt in X as [X Y].
      elim Y. auto.
  Qed.
  Lemma some_result perm0 : exists cover, cv_returns n o null cov bkt thr low nbr perm0 cover.
  Proof.
    assert (X : forall m k s, load n D0 due0 - k <= m -> loop perm0 k s -> exists cover, cv_returns n o null cov bkt thr low nbr perm0 cover).
    { induction m as [|m IH]; intros k s Hm H; destruct (step_or_end H) as [(fuel & bk' & E)|(s2 & E)];
        try (exists (c_cover s), k, s, fuel, bk'; auto; fail).
      - pose proof (rounds_bound (cv_next H E)). lia.
      - pose proof (rounds_bound (cv_next H E)). apply (IH (S k) s2); [lia|]. now apply cv_next with s. }
    apply (X _ 0 (start n o null bkt nbr perm0) (le_n _)). constructor.
  Qed.

  Lemma result_ok perm0 cover : cv_returns n o null cov bkt thr low nbr perm0 cover ->
    NoDup cover /\ (forall u, In u cover -> u < n) /\ covers n nbr cover.
  Proof.
    intros (k & s & fuel & bk' & H & E & ->). destruct edges_dec as [He|He].
    - destruct (loop_inv He H) as (due & I & _). destruct (i_bk I) as (t & last & HB). pose proof (BKI_none Ho HB E) as Hd.
      split; [apply (i_nd I)|]. split; [intros u Hu; now apply (i_cn I)|]. intros u v Hu Hv.
      destruct (i_not I Hu (Hd u)) as [X|X]; [eauto|]. apply (i_cov I), (X v Hv).
    - destruct (loop_start He H) as [_ ->]. simpl. split; [constructor|]. split; [tauto|]. intros u v Hu Hv. rewrite He in Hv by auto. destruct Hv.
  Qed.

  Section Size.
    Variable kappa : Q.
    Hypothesis Hst : steep bkt low kappa.
    Hypothesis Hnd : forall u, u < n -> NoDup (nbr u).
    Hypothesis Hin : forall u v, u < n -> In v (nbr u) -> v < n.
    Notation WT := (WT n null cov nbr kappa).

    Lemma loop_wt perm0 k s : (exists i, i < n /\ nbr i <> []) -> loop perm0 k s -> exists w, WT s w.
    Proof.
      intros He. induction 1 as [|k s s2 Hl (w & HW) Hr].
      - exists (fun _ => 0%Q).
        assert (Z : forall l : list nat, (qsum (map (fun _ => 0) l) == 0)%Q).
        { unfold qsum. induction l as [|x l IH]; simpl; [reflexivity|]. rewrite IH. lra. }
        constructor; simpl; auto.
        + intros _. lra.
        + intros _ _. lra.
        + rewrite Z. change (inject_Z 0) with 0%Q. lra.
        + intros u Hu _. rewrite Z. unfold uncov. rewrite filter_all.
          * lra.
          * intros v _. apply negb_true_iff, Nat.eqb_neq. lia.
        + tauto.
      - destruct (loop_inv He Hl) as (due & I & _). destruct Hr as [s fuel b L bk' P es2 es4 Hn nb A HP H2 H4].
        eexists. exact (round_wt Ho Hcov Hlv Hfit Hst Hnd Hin I Hn HP H2 H4 HW).
    Qed.

    Lemma result_size perm0 cover O : cv_returns n o null cov bkt thr low nbr perm0 cover ->
      (forall u, In u O -> u < n) -> covers n nbr O ->
      (qn (length cover) <= qsum (map (fun u => kappa * harmonic (length (nbr u)) +
         (if mem u cover then (1 - 1 / kappa) * qn (length (nbr u)) else 0)) O))%Q.
    Proof.
      intros (k & s & fuel & bk' & H & E & ->) HO HOc. pose proof (kappa_1 Ho Hcov Hlv Hst) as K1. destruct edges_dec as [He|He].
      - destruct (loop_inv He H) as (due & I & _). destruct (loop_wt He H) as (w & HW).
        eapply Qle_trans; [apply (w_total HW)|].
        set (p := fun v => negb (c_el s v =? null)).
        assert (E1 : (qsum (map w (seq 0 n)) <= qsum (map w (filter p (seq 0 n))))%Q).
        { unfold qsum. induction (seq 0 n) as [|v l IH]; simpl; [lra|]. unfold p at 1. destruct (Nat.eqb_spec (c_el s v) null) as [Ev|Ev]; simpl.
          - pose proof (w_zero HW Ev). lra.
          - lra. }
        assert (E2 : (qsum (map w (filter p (seq 0 n))) <= qsum (map w (flat_map nbr O)))%Q).
        { apply qsum_incl; [apply (w_pos HW)|apply NoDup_filter', seq_NoDup|]. intros v Hv. apply filter_In in Hv as [_ Hv].
          apply negb_true_iff, Nat.eqb_neq in Hv. destruct (i_el I v) as [Ev|Ev]; [|tauto].
          destruct (i_cov I Ev) as (u & A & B). destruct (i_cn I A) as [C _]. destruct (HOc u v C B) as (x & X1 & X2).
          apply in_flat_map. eauto. }
        assert (E3 : forall l, (forall u, In u l -> u < n) -> (qsum (map w (flat_map nbr l)) <= qsum (map (fun u => kappa * harmonic (length (nbr u)) +
           (if mem u (c_cover s) then (1 - 1 / kappa) * qn (length (nbr u)) else 0)) l))%Q).
        { induction l as [|u l IH]; intros Hl; simpl; [unfold qsum; simpl; lra|]. rewrite map_app, qsum_app.
          specialize (IH (fun x Hx => Hl x (or_intror Hx))). assert (Hu : u < n) by (apply Hl; now left).
          change (qsum (?a :: ?b)) with (a + qsum b)%Q.
          assert (Y : (qsum (map w (nbr u)) <= kappa * harmonic (length (nbr u)) +
            (if mem u (c_cover s) then (1 - 1 / kappa) * qn (length (nbr u)) else 0))%Q).
          { destruct (mem u (c_cover s)) eqn:Em.
            - apply mem_In in Em. pose proof (w_in HW Hu Em) as X. pose proof (@qn_0 (uncov cov nbr (c_el s) u)). lra.
            - assert (Hc : ~ In u (c_cover s)) by (intros X; apply mem_In in X; congruence).
              pose proof (w_out HW Hu Hc) as X. pose proof (@harmonic_0 (uncov cov nbr (c_el s) u)). nra. }
          unfold qsum in *. simpl. lra. }
        specialize (E3 O HO). lra.
      - destruct (loop_start He H) as [_ ->]. simpl c_cover. change (qn (length (@nil nat))) with 0%Q.
        clear HOc. induction O as [|u O IH]; unfold qsum in *; simpl in *; [lra|]. specialize (IH (fun x Hx => HO x (or_intror Hx))).
        pose proof (@harmonic_0 (length (nbr u))). nra.
    Qed.
  End Size.
End Runs.

(* -- the exact functions ------------------------------------------------------------------- *)
Section Exact.
  Local Open Scope Z_scope.
  Notation zn b := (Z.of_nat b).
  Definition lev (b : nat) (d : Z) : Prop := 101 ^ zn b <= d * 100 ^ zn b.
  Lemma pow_S c b : c ^ zn (S b) = c * c ^ zn b.
  Proof. rewrite Nat2Z.inj_succ, Z.pow_succ_r; lia. Qed.
  Lemma pow_pos c b : 0 < c -> 0 < c ^ zn b.
  Proof. intros H. apply Z.pow_pos_nonneg; lia. Qed.
  Lemma lev_down b : forall k d, 0 <= d -> lev (b + k) d -> lev b d.
  Proof.
    induction k as [|k IH]; intros d Hd H; [now rewrite Nat.add_0_r in H|]. apply IH; auto. rewrite Nat.add_succ_r in H.
    unfold lev in *. rewrite !pow_S in H. pose proof (@pow_pos 100 (b + k) ltac:(lia)). nia.
  Qed.
  Lemma lev_le b b' d : 0 <= d -> (b <= b')%nat -> lev b' d -> lev b d.
  Proof. intros Hd H. replace b' with (b + (b' - b))%nat by lia. now apply lev_down. Qed.
  Lemma search_ok fuel : forall d b, lev b d -> let r := exact_search fuel d b (101 ^ zn b) (100 ^ zn b) in
    lev r d /\ (~ lev (S r) d \/ r = (b + fuel)%nat).
  Proof.
    induction fuel as [|fuel IH]; intros d b H; cbn [exact_search]; [split; auto; right; lia|].
    destruct (Z.leb_spec (101 * 101 ^ zn b) (d * (100 * 100 ^ zn b))) as [Hl|Hl].
    - rewrite <- !pow_S in *. destruct (IH d (S b) Hl) as [A [B|B]]; split; auto. right. simpl in *. lia.
    - split; auto. left. unfold lev. rewrite !pow_S. lia.
  Qed.
  Lemma bernoulli k : (100 + zn k) * 100 ^ zn k <= 100 * 101 ^ zn k.
  Proof. induction k as [|k IH]; [simpl; lia|]. rewrite !pow_S. pose proof (@pow_pos 100 k ltac:(lia)). nia. Qed.
  Lemma bkt_ok d : (1 <= d)%nat -> lev (exact_bkt d) (zn d) /\ ~ lev (S (exact_bkt d)) (zn d).
  Proof.
    intros H. assert (H0 : lev 0 (zn d)) by (unfold lev; simpl; lia). destruct (search_ok (100 * d) H0) as [A B]. split; [exact A|].
    destruct B as [B|B]; auto. intros _. change (101 ^ zn 0) with 1 in *. change (100 ^ zn 0) with 1 in *. fold (exact_bkt d) in A, B. rewrite B in A. rewrite Nat.add_0_l in A.
    assert (N : zn (100 * d)%nat = 100 * zn d) by lia. set (k := (100 * d)%nat) in *.
    pose proof (@bernoulli k) as X. pose proof (@pow_pos 100 k ltac:(lia)) as Y. unfold lev in A. rewrite N in X at 1. nia.
  Qed.
  Lemma bkt_iff d b : (1 <= d)%nat -> (b <= exact_bkt d)%nat <-> lev b (zn d).
  Proof.
    intros H. destruct (bkt_ok H) as [A B]. split; [intros X; apply (lev_le (Nat2Z.is_nonneg d) X A)|]. intros X.
    destruct (le_lt_dec b (exact_bkt d)); auto. exfalso. apply B. apply (lev_le (Nat2Z.is_nonneg d) (l : (S _ <= _)%nat) X).
  Qed.
  Lemma thr_iff d b : (exact_thr b <= d)%nat <-> lev b (zn d).
  Proof.
    unfold exact_thr, lev. pose proof (@pow_pos 100 b ltac:(lia)) as Hq. pose proof (@pow_pos 101 b ltac:(lia)) as Hp.
    set (p := 101 ^ zn b) in *. set (q := 100 ^ zn b) in *. pose proof (Z.div_mod (p + q - 1) q ltac:(lia)) as E.
    pose proof (Z.mod_pos_bound (p + q - 1) q Hq) as M. set (x := (p + q - 1) / q) in *. assert (0 <= x) by nia.
    split; intros X; [assert (x <= zn d) by lia; nia|]. assert (x <= zn d) by nia. lia.
  Qed.
  Lemma exact_levels : levels exact_bkt exact_thr exact_low.
  Proof.
    constructor.
    - intros d b Hd. rewrite thr_iff, bkt_iff; tauto.
    - intros [|b]; [vm_compute; lia|]. assert (T : forall b, (1 <= exact_thr b)%nat).
      { intros c. destruct (le_lt_dec (exact_thr c) 0) as [X|]; auto. apply thr_iff in X. unfold lev in X. pose proof (@pow_pos 101 c ltac:(lia)). simpl in X. lia. }
      assert (M : (exact_thr b <= exact_thr (S b))%nat).
      { apply thr_iff. apply lev_le with (S b); try lia. apply thr_iff. lia. }
      unfold exact_low. specialize (T (S b)). lia.
  Qed.
  Lemma exact_steep : steep exact_bkt exact_low (10201 # 10000).
  Proof.
    intros d b Hd Hb. assert (N : ~ lev (S b) (zn d)).
    { intros X. apply bkt_iff in X; auto. lia. }
    unfold lev in N. assert (10000 * zn d <= 10201 * zn (exact_low b)).
    { destruct b as [|b].
      - change (exact_low 0) with 1%nat. simpl in N. lia.
      - assert (L : lev b (zn (exact_low (S b)))) by (apply thr_iff; unfold exact_low; lia). unfold lev in L.
        rewrite !pow_S in N. pose proof (@pow_pos 100 b ltac:(lia)) as Hq. set (p := 101 ^ zn b) in *. set (q := 100 ^ zn b) in *.
        assert (10000 * zn d * q < 10201 * zn (exact_low (S b)) * q) by lia. nia. }
    unfold Qle, Qmult, inject_Z. cbn [Qnum Qden]. change (Z.pos (10000 * 1)) with 10000. lia.
  Qed.
End Exact.

(* -- a run that never ends ------------------------------------------------------------------ *)
Section Hang.
  Variables o null cov : nat.
  Variables bkt thr low : nat -> nat.
  Hypothesis Ho : 0 < o.
  Hypothesis Hcov : 2 <= cov < null.
  Hypothesis Hb : bkt 1 = 0.
  Hypothesis Hlow : 2 <= low 0.
  Definition edge (v : nat) : list nat := match v with 0 => [1] | 1 => [0] | _ => [] end.
  Notation INV := (INV 2 o null cov bkt edge).
  Definition two (v : nat) : bool := v <? 2.
  Record stuck (s : cst) : Prop := {
    st_inv : INV s two;
    st_el : forall v, c_el s v = null;
    st_nb : forall v, c_nb s v = edge v;
    st_D : forall v, v < 2 -> c_D s v = 0
  }.

  Lemma stuck_next s fuel r bk' : stuck s -> next_bucket false o fuel (c_D s) (c_bk s) = Ret r bk' ->
    exists L, r = Some (0, L).
  Proof.
    intros H E. destruct (i_bk (st_inv H)) as (t & last & HB). destruct r as [[b L]|].
    - destruct (BKI_next 2 Ho HB E) as (_ & Hne & HL & _). destruct L as [|v L]; [congruence|].
      destruct (proj1 (HL v) (or_introl eq_refl)) as [Hv Ed]. unfold two in Hv. apply Nat.ltb_lt in Hv.
      rewrite (st_D H Hv) in Ed. subst b. eauto.
    - pose proof (BKI_none Ho HB E 0) as X. discriminate.
  Qed.

  Lemma stuck_round s s2 : stuck s -> cv_round o null cov bkt thr low s s2 -> stuck s2.
  Proof.
    intros H Hr. destruct Hr as [s fuel b L bk' P es2 es4 Hn nb A HP H2 H4]. destruct (stuck_next H Hn) as (L' & EL). injection EL as -> <-.
    pose proof (st_inv H) as I.
    destruct (L_facts Ho I Hn) as (LN & LE & LI & LB & t & LK).
    assert (Enb : forall v, nb1 cov s L v = edge v).
    { intros v. unfold nb1, packed. rewrite (st_nb H). destruct (mem v L); auto. apply filter_all. intros x _. rewrite (st_el H).
      apply negb_true_iff, Nat.eqb_neq. lia. }
    assert (Elen : forall v, length (edge v) <= 1) by (intros [|[|v]]; simpl; lia).
    assert (EC : CC cov thr low s 0 L P es2 = []).
    { unfold CC, in_cover. apply filter_none. intros v _. apply Nat.leb_gt. unfold num_won.
      pose proof (filter_len_le (fun x => el2 cov thr s 0 L P es2 x =? pm cov thr s 0 L P v) (nb1 cov s L v)) as X. rewrite Enb in *. specialize (Elen v). lia. }
    set (D2 := D2 null cov bkt thr low s 0 L P es2).
    assert (ED2 : forall v, D2 v = D1 null cov bkt s L v) by (intros v; unfold D2, CVProofs.D2, joined; rewrite EC; reflexivity).
    assert (ED : forall v, v < 2 -> D2 v = 0).
    { intros v Hv. rewrite ED2. unfold D1, degs. destruct (mem v L); [|now apply (st_D H)]. rewrite Enb.
      destruct v as [|[|v]]; [exact Hb|exact Hb|lia]. }
    assert (El : forall v, el3 null cov bkt thr low s 0 L P es2 es4 v = null).
    { intros v. destruct (el2_unc Ho Hcov I Hn HP H2 (st_el H v)) as [[E _]|(u & Hu & Hv & E & _)].
      - exact (el3_free low Ho Hcov I Hn HP H4 E).
      - rewrite (el3_own low Ho Hcov I Hn HP H4 Hu Hv E). fold D2. rewrite ED; [destruct (Nat.eqb_spec 0 null); auto; lia|].
        apply A_L in Hu as [Hu _]. now apply (L_lt Ho I Hn). }
    constructor; [constructor| |exact Enb|exact ED]; simpl; auto.
    - exists t, 0. assert (HB : BKI o null t (rebucket o null D2 L bk') D2 (fun v => (two v && negb (mem v L)) || mem v L && negb (D2 v =? null)) 0).
      { apply (@BKI_rebucket o null 2 Ho t bk' (c_D s)); auto.
        - intros v Hv. apply mem_In in Hv. rewrite Hv. apply andb_false_r.
        - intros v Hv. rewrite ED2. unfold D1, degs. destruct (mem v L) eqn:Em; auto. apply mem_In in Em. tauto.
        - intros v Hv. right. assert (v < 2) by now apply (L_lt Ho I Hn). rewrite ED by auto. lia. }
      eapply BKI_ext; [| |exact HB]; [reflexivity|]. intros v. cbn beta. destruct (mem v L) eqn:Em; cbn [negb andb]; [|now rewrite andb_true_r, orb_false_r].
      apply mem_In in Em. assert (Hv : v < 2) by now apply (L_lt Ho I Hn). rewrite ED by auto. unfold two. rewrite (proj2 (Nat.ltb_lt v 2) Hv).
      destruct (Nat.eqb_spec 0 null); simpl; [lia|]. reflexivity.
    - intros v. right. apply El.
    - intros u. change (incl (nb1 cov s L u) (edge u)). rewrite Enb. apply incl_refl.
    - intros u. change (length (nb1 cov s L u) <= length (edge u)). now rewrite Enb.
    - intros u Hu. change (NoDup (nb1 cov s L u)). now rewrite Enb.
    - intros u v Hv _. change (In v (nb1 cov s L u)). now rewrite Enb.
    - intros u Hu. unfold two in Hu. apply Nat.ltb_lt in Hu. change (u < 2 /\ nb1 cov s L u <> [] /\ D2 u = bkt (length (nb1 cov s L u))).
      rewrite Enb, ED by auto. destruct u as [|[|u]]; [| |lia]; simpl; repeat split; auto; discriminate.
    - intros u Hu Hd. unfold two in Hd. apply Nat.ltb_ge in Hd. lia.
    - intros v E. change (el3 null cov bkt thr low s 0 L P es2 es4 v = cov) in E. rewrite El in E. lia.
    - change (NoDup (c_cover s ++ CC cov thr low s 0 L P es2)). rewrite EC, app_nil_r. apply (i_nd I).
    - intros u. change (In u (c_cover s ++ CC cov thr low s 0 L P es2) -> u < 2 /\ two u = false). rewrite EC, app_nil_r. apply (i_cn I).
  Qed.

  Lemma stuck_start perm0 : stuck (start 2 o null bkt edge perm0).
  Proof.
    assert (Hfit : forall v, v < 2 -> bkt (length (edge v)) < null) by (intros [|[|v]] Hv; simpl; rewrite ?Hb; lia).
    assert (X : INV (start 2 o null bkt edge perm0) (fun v => (v <? 2) && (D0 2 null bkt edge v <? null))).
    { apply (@start_inv 2 o null cov bkt edge Ho Hcov Hfit). exists 0. split; [lia|]. discriminate. }
    assert (ED : forall v, v < 2 -> D0 2 null bkt edge v = 0) by (intros [|[|v]] Hv; unfold D0; simpl; unfold clamp; simpl; auto; lia).
    assert (E : forall v, two v = (v <? 2) && (D0 2 null bkt edge v <? null)).
    { intros v. unfold two. destruct (Nat.ltb_spec v 2) as [Hv|Hv]; auto. rewrite ED by auto. symmetry. apply Nat.ltb_lt. lia. }
    constructor; simpl; auto. destruct X. constructor; auto.
    - destruct i_bk as (t & last & HB). exists t, last. eapply BKI_ext; [| |exact HB]; auto.
    - intros u Hu. rewrite E in Hu. auto.
    - intros u Hu Hd. rewrite E in Hd. auto.
    - intros u Hu. rewrite E. auto.
  Qed.

  Lemma never_returns perm0 cover : ~ cv_returns 2 o null cov bkt thr low edge perm0 cover.
  Proof.
    intros (k & s & fuel & bk' & H & E & _).
    assert (X : stuck s) by (clear E; induction H; [apply stuck_start|eapply stuck_round; eauto; fail]).
    destruct (stuck_next X E). discriminate.
  Qed.
End Hang.
