(* Proofs for C65: one round of SetCover. *)
From Verif Require Import Base ListUtil BKModel BKSpec BKProofs CVModel CVSpec CVBuckets.
Local Open Scope nat_scope.
Unset Strict Implicit.

(* -- the permutation ---------------------------------------------------------------------- *)
Lemma perms_nth A : forall P perm i, NoDup A -> length P = length A -> i < length A ->
  perms A P perm (nth i A 0) = nth i P 0.
Proof.
  unfold perms. induction A as [|a A IH]; intros [|p P] perm i Hnd Hl Hi; simpl in *; try lia.
  inversion Hnd as [|? ? H1 H2]; subst. destruct i as [|i].
  - assert (X : forall l (P : list nat) f, ~ In a l -> fold_left (fun (g : nat -> nat) vp => fset g (fst vp) (snd vp)) (combine l P) f a = f a).
    { induction l as [|x l IHl]; intros [|y Q] f Hn; simpl in *; auto. rewrite IHl by tauto. apply fset_other. intros ->. tauto. }
    rewrite X by auto. apply fset_same.
  - apply IH; auto; lia.
Qed.
Lemma perms_map A P perm : NoDup A -> length P = length A -> map (perms A P perm) A = P.
Proof.
  intros Hnd Hl. apply nth_ext with (d := perms A P perm 0) (d' := 0); rewrite map_length; auto.
  intros i Hi. rewrite map_nth. apply perms_nth; auto.
Qed.

Section Phases.
  Variable cov : nat.
  Variable perm : nat -> nat.

  Lemma acquired_cov es : forall el v, el v = cov -> acquired cov perm es el v = cov.
  Proof.
    unfold acquired. induction es as [|e es IH]; intros el v E; simpl; auto. apply IH. unfold acquire.
    destruct (Nat.eqb_spec (el (snd e)) cov) as [|N]; auto. rewrite fset_other; auto. congruence.
  Qed.
  Lemma acquired_min es : (forall e, In e es -> perm (fst e) < cov) -> forall el v, el v <> cov ->
    let r := acquired cov perm es el v in
    r <> cov /\ (r = el v \/ exists u, In (u, v) es /\ r = perm u) /\ r <= el v /\ (forall u, In (u, v) es -> r <= perm u).
  Proof.
    unfold acquired. induction es as [|e es IH]; intros Hp el v Hn; simpl.
    - split; auto. split; auto. split; auto. intros u [].
    - assert (Hp' : forall e', In e' es -> perm (fst e') < cov) by (intros; apply Hp; now right).
      destruct e as [a x]. assert (Ha : perm a < cov) by (apply (Hp (a, x)); now left).
      set (el1 := acquire cov perm el (a, x)).
      assert (F : el1 v <> cov /\ (el1 v = el v \/ x = v /\ el1 v = perm a) /\ el1 v <= el v /\ (x = v -> el1 v <= perm a)).
      { unfold el1, acquire. simpl. destruct (Nat.eqb_spec (el x) cov) as [Ex|Nx].
        - split; auto. split; auto. split; auto. intros ->. tauto.
        - destruct (Nat.eq_dec x v) as [->|Nv]; [rewrite fset_same|rewrite fset_other by auto].
          + split; [lia|]. split; [|lia]. destruct (Nat.min_spec (el v) (perm a)) as [[_ E]|[_ E]]; rewrite E; auto.
          + split; auto. split; auto. split; auto. tauto. }
      destruct F as (F1 & F2 & F3 & F4). destruct (IH Hp' el1 v F1) as (A1 & A2 & A3 & A4). split; [exact A1|]. split; [|split].
      + destruct A2 as [A2|(u & B & C)]; [|right; exists u; auto]. destruct F2 as [F2|[-> F2]]; [left; congruence|].
        right. exists a. split; [now left|congruence].
      + lia.
      + intros u [E|E]; [injection E as <- <-; specialize (F4 eq_refl); lia|auto].
  Qed.

  Variable null : nat.
  Variable D : nat -> nat.
  Lemma reset_keep es : forall el v, (forall u, In (u, v) es -> perm u <> el v) -> reset_all null cov D perm es el v = el v.
  Proof.
    unfold reset_all. induction es as [|[a x] es IH]; intros el v H; simpl; auto. unfold reset at 2. simpl.
    destruct (Nat.eqb_spec (el x) (perm a)) as [E|N].
    - assert (x <> v). { intros ->. apply (H a); [now left|auto]. }
      rewrite IH; [now apply fset_other; auto|]. intros u Hu. rewrite fset_other by auto. apply H. now right.
    - apply IH. intros u Hu. apply H. now right.
  Qed.
  Hypothesis Hcn : cov < null.
  Lemma reset_own es : (forall e, In e es -> perm (fst e) < cov) -> forall el u v,
    (forall e, In e es -> perm (fst e) = perm u -> fst e = u) ->
    In (u, v) es -> el v = perm u -> reset_all null cov D perm es el v = if D u =? null then cov else null.
  Proof.
    unfold reset_all. induction es as [|[a x] es IH]; intros Hp el u v Hinj Hin E; simpl in *; [tauto|].
    assert (Hp' : forall e', In e' es -> perm (fst e') < cov) by (intros; apply Hp; now right).
    unfold reset at 2. simpl. destruct (Nat.eqb_spec (el x) (perm a)) as [Ex|Nx].
    - destruct (Nat.eq_dec x v) as [->|Nv].
      + assert (a = u) as -> by (apply (Hinj (a, v)); [now left|simpl; congruence]).
        fold (reset_all null cov D perm es (fset el v (if D u =? null then cov else null))).
        rewrite reset_keep; [apply fset_same|]. intros w Hw. rewrite fset_same. specialize (Hp' _ Hw). simpl in Hp'.
        destruct (D u =? null); lia.
      + destruct Hin as [Hin|Hin]; [congruence|]. apply IH; auto. rewrite fset_other; auto.
    - destruct Hin as [Hin|Hin]; [congruence|]. apply IH; auto.
  Qed.
End Phases.

Lemma out_edges_In A nb u v : In (u, v) (out_edges A nb) <-> In u A /\ In v (nb u).
Proof.
  unfold out_edges. rewrite in_flat_map. split.
  - intros (x & Hx & Hm). apply in_map_iff in Hm as (y & E & Hy). injection E as <- <-. auto.
  - intros [A1 A2]. exists u. split; auto. apply in_map_iff. eauto.
Qed.

Section Round.
  Variables n o null cov : nat.
  Variables bkt thr low : nat -> nat.
  Variable nbr : nat -> list nat.
  Hypothesis Ho : 0 < o.
  Hypothesis Hcov : n <= cov < null.
  Hypothesis Hlv : levels bkt thr low.
  Hypothesis Hfit : forall v, v < n -> bkt (length (nbr v)) < null.

  Lemma bkt_mono d d' : 1 <= d -> d <= d' -> bkt d <= bkt d'.
  Proof. intros H1 H2. apply (lv_thr Hlv); [lia|]. assert (thr (bkt d) <= d) by (apply (lv_thr Hlv); auto). lia. Qed.

  Record INV (s : cst) (due : nat -> bool) : Prop := {
    i_bk : exists t last, BKI o null t (c_bk s) (c_D s) due last;
    i_el : forall v, c_el s v = cov \/ c_el s v = null;
    i_sub : forall u, incl (c_nb s u) (nbr u);
    i_len : forall u, length (c_nb s u) <= length (nbr u);
    i_nodup : forall u, NoDup (nbr u) -> NoDup (c_nb s u);
    i_keep : forall u v, In v (nbr u) -> c_el s v = null -> In v (c_nb s u);
    i_due : forall u, due u = true -> u < n /\ c_nb s u <> [] /\ c_D s u = bkt (length (c_nb s u));
    i_not : forall u, u < n -> due u = false -> In u (c_cover s) \/ forall v, In v (nbr u) -> c_el s v = cov;
    i_cov : forall v, c_el s v = cov -> exists u, In u (c_cover s) /\ In v (nbr u);
    i_nd : NoDup (c_cover s);
    i_cn : forall u, In u (c_cover s) -> u < n /\ due u = false
  }.

  Section One.
    Variable s : cst.
    Variable due : nat -> bool.
    Hypothesis I : INV s due.
    Variables fuel b : nat.
    Variable L : list nat.
    Variable bk' : bst.
    Hypothesis Hnext : next_bucket false o fuel (c_D s) (c_bk s) = Ret (Some (b, L)) bk'.
    Definition nb1 := packed cov L (c_el s) (c_nb s).
    Definition AA := still thr b L nb1.
    Variable P : list nat.
    Hypothesis HP : Permutation P (seq 0 (length AA)).
    Variables es2 es4 : list (nat * nat).
    Hypothesis H2 : Permutation es2 (out_edges AA nb1).
    Hypothesis H4 : Permutation es4 (out_edges AA nb1).
    Definition pm := perms AA P (c_perm s).
    Definition el2 := acquired cov pm es2 (c_el s).
    Definition CC := in_cover low b pm el2 nb1 AA.
    Definition D1 := degs null bkt L nb1 (c_D s).
    Definition D2 := joined null CC D1.
    Definition el3 := reset_all null cov D2 pm es4 el2.
    Definition s' := round_with o null cov bkt thr low b L bk' P es2 es4 s.
    Definition due' (v : nat) : bool := (due v && negb (mem v L)) || mem v L && negb (D2 v =? null).

    Lemma L_facts : NoDup L /\ L <> [] /\ (forall v, In v L <-> due v = true /\ c_D s v = b) /\
      (forall v, due v = true -> c_D s v <= b) /\ exists t, BKI o null t bk' (c_D s) (fun v => due v && negb (mem v L)) b.
    Proof.
      destruct (i_bk I) as (t & last & HB). destruct (BKI_next n Ho HB Hnext) as (A & B & C & D & _ & E).
      repeat split; auto; try (now apply C). exists t. exact E.
    Qed.
    Lemma L_lt v : In v L -> v < n.
    Proof. intros H. destruct L_facts as (_ & _ & E & _). apply E in H as [H _]. apply (i_due I H). Qed.
    Lemma A_L v : In v AA -> In v L /\ thr b <= length (nb1 v).
    Proof. unfold AA, still. intros H. apply filter_In in H as [H1 H3]. apply Nat.leb_le in H3. auto. Qed.
    Lemma A_nodup : NoDup AA.
    Proof. apply NoDup_filter', L_facts. Qed.
    Lemma A_len : length AA <= n.
    Proof.
      replace n with (length (seq 0 n)) by apply seq_length. apply NoDup_incl_length; [exact A_nodup|].
      intros v Hv. apply A_L in Hv as [Hv _]. apply L_lt in Hv. apply in_seq. lia.
    Qed.
    Lemma pm_map : map pm AA = P.
    Proof. apply perms_map; [exact A_nodup|]. rewrite (Permutation_length HP). apply seq_length. Qed.
    Lemma pm_lt v : In v AA -> pm v < cov.
    Proof.
      intros H. assert (H1 : In (pm v) P) by (rewrite <- pm_map; now apply in_map).
      apply (Permutation_in _ HP), in_seq in H1. pose proof A_len. lia.
    Qed.
    Lemma pm_inj u v : In u AA -> In v AA -> pm u = pm v -> u = v.
    Proof.
      assert (Hnd : NoDup (map pm AA)) by (rewrite pm_map; eapply Permutation_NoDup; [apply Permutation_sym, HP|apply seq_NoDup]).
      pose proof A_nodup as HA. revert Hnd HA. generalize AA as l. induction l as [|x l IH]; simpl; [tauto|].
      intros Hnd HA Hu Hv E. inversion Hnd as [|? ? N1 N2]; inversion HA as [|? ? N3 N4]; subst.
      destruct Hu as [->|Hu], Hv as [->|Hv]; auto; exfalso; apply N1; [rewrite E|rewrite <- E]; now apply in_map.
    Qed.
    Lemma e2_In u v : In (u, v) es2 <-> In u AA /\ In v (nb1 u).
    Proof. rewrite <- out_edges_In. split; intros H; eapply Permutation_in; try exact H; auto. now apply Permutation_sym. Qed.
    Lemma e4_In u v : In (u, v) es4 <-> In u AA /\ In v (nb1 u).
    Proof. rewrite <- out_edges_In. split; intros H; eapply Permutation_in; try exact H; auto. now apply Permutation_sym. Qed.

    Lemma nb1_in v : In v L -> nb1 v = filter (fun x => negb (c_el s x =? cov)) (c_nb s v).
    Proof. intros H. unfold nb1, packed. now rewrite (proj2 (mem_In v L) H). Qed.
    Lemma nb1_out v : ~ In v L -> nb1 v = c_nb s v.
    Proof. intros H. unfold nb1, packed. destruct (mem v L) eqn:E; auto. apply mem_In in E. tauto. Qed.
    Lemma nb1_unc u x : In u L -> In x (nb1 u) -> c_el s x = null.
    Proof.
      intros Hu. rewrite nb1_in by auto. intros H. apply filter_In in H as [_ H]. apply negb_true_iff, Nat.eqb_neq in H.
      destruct (i_el I x); tauto.
    Qed.
    Lemma nb1_incl u : incl (nb1 u) (c_nb s u).
    Proof. unfold nb1, packed. destruct (mem u L); [apply incl_filter|apply incl_refl]. Qed.
    Lemma nb1_len u : length (nb1 u) <= length (c_nb s u).
    Proof. unfold nb1, packed. destruct (mem u L); auto. apply filter_len_le. Qed.
    Lemma nb1_keep u x : In x (nbr u) -> c_el s x = null -> In x (nb1 u).
    Proof.
      intros H E. pose proof (i_keep I H E) as Hk. unfold nb1, packed. destruct (mem u L); auto. apply filter_In. split; auto.
      apply negb_true_iff, Nat.eqb_neq. lia.
    Qed.

    (* -- acquisition -- *)
    Lemma el2_cov v : c_el s v = cov -> el2 v = cov.
    Proof. apply acquired_cov. Qed.
    Lemma es2_lt e : In e es2 -> pm (fst e) < cov.
    Proof. destruct e as [u v]. intros H. apply e2_In in H as [H _]. now apply pm_lt. Qed.
    Lemma es4_lt e : In e es4 -> pm (fst e) < cov.
    Proof. destruct e as [u v]. intros H. apply e4_In in H as [H _]. now apply pm_lt. Qed.
    Lemma el2_unc v : c_el s v = null ->
      (el2 v = null /\ forall u, In u AA -> ~ In v (nb1 u)) \/
      (exists u, In u AA /\ In v (nb1 u) /\ el2 v = pm u /\ forall w, In w AA -> In v (nb1 w) -> pm u <= pm w).
    Proof.
      intros E. destruct (@acquired_min cov pm es2 es2_lt (c_el s) v ltac:(lia)) as (A1 & A2 & A3 & A4). fold el2 in A1, A2, A3, A4.
      destruct A2 as [A2|(u & B & C)].
      - left. split; [congruence|]. intros u Hu Hv. assert (Hin : In (u, v) es2) by (apply e2_In; auto).
        specialize (A4 u Hin). pose proof (pm_lt Hu). lia.
      - right. apply e2_In in B as [B1 B2]. exists u. repeat split; auto. intros w Hw Hv. rewrite <- C. apply A4. apply e2_In; auto.
    Qed.

    (* -- joining -- *)
    Lemma C_A u : In u CC -> In u AA /\ low b <= num_won pm el2 nb1 u.
    Proof. unfold CC, in_cover. intros H. apply filter_In in H as [H1 H3]. apply Nat.leb_le in H3. auto. Qed.
    Lemma C_nodup : NoDup CC.
    Proof. apply NoDup_filter', A_nodup. Qed.
    Lemma D1_A u : In u AA -> D1 u = bkt (length (nb1 u)) /\ D1 u < null /\ 1 <= length (nb1 u).
    Proof.
      intros H. pose proof (A_L H) as [HL Ht]. pose proof (lv_low Hlv b) as Hl.
      assert (E : D1 u = bkt (length (nb1 u))).
      { unfold D1, degs. rewrite (proj2 (mem_In u L) HL). unfold clamp. rewrite (proj2 (Nat.eqb_neq _ 0)); auto. lia. }
      split; auto. split; [|lia]. rewrite E. pose proof (nb1_len u). pose proof (i_len I u). specialize (Hfit (L_lt HL)).
      pose proof (@bkt_mono (length (nb1 u)) (length (nbr u)) ltac:(lia) ltac:(lia)). lia.
    Qed.
    Lemma D2_A u : In u AA -> (D2 u = null <-> In u CC).
    Proof.
      intros H. unfold D2, joined. destruct (mem u CC) eqn:E; [apply mem_In in E; tauto|]. pose proof (D1_A H) as (_ & Hlt & _).
      split; [lia|]. intros Hc. apply mem_In in Hc. congruence.
    Qed.
    Lemma first_joins : AA <> [] -> CC <> [].
    Proof.
      intros Hne. assert (H0 : In 0 P).
      { apply (Permutation_in _ (Permutation_sym HP)), in_seq. destruct AA; simpl; [congruence|lia]. }
      rewrite <- pm_map in H0. apply in_map_iff in H0 as (u & E & Hu).
      assert (Hw : num_won pm el2 nb1 u = length (nb1 u)).
      { unfold num_won. f_equal. apply filter_all. intros v Hv. apply Nat.eqb_eq. pose proof (A_L Hu) as [HL _].
        destruct (el2_unc (nb1_unc HL Hv)) as [[_ N]|(w & Hw & Hv' & Ew & Hmin)]; [now elim (N u Hu)|].
        specialize (Hmin u Hu Hv). lia. }
      assert (Hin : In u CC).
      { apply filter_In. split; auto. apply Nat.leb_le. pose proof (A_L Hu). pose proof (lv_low Hlv b). lia. }
      intros Ec. now rewrite Ec in Hin.
    Qed.

    (* -- marking -- *)
    Lemma el3_cov v : c_el s v = cov -> el3 v = cov.
    Proof.
      intros E. unfold el3. rewrite reset_keep; [now apply el2_cov|]. intros u Hu. rewrite el2_cov by auto. apply es4_lt in Hu. simpl in Hu. lia.
    Qed.
    Lemma el3_own u v : In u AA -> In v (nb1 u) -> el2 v = pm u -> el3 v = if D2 u =? null then cov else null.
    Proof.
      intros Hu Hv E. unfold el3. apply reset_own; auto; [lia|exact es4_lt| |now apply e4_In].
      intros [a x] He Ep. simpl in *. apply e4_In in He as [He _]. now apply pm_inj.
    Qed.
    Lemma el3_free v : el2 v = null -> el3 v = null.
    Proof.
      intros E. unfold el3. rewrite reset_keep; auto. intros u Hu. rewrite E. apply es4_lt in Hu. simpl in Hu. lia.
    Qed.
    Lemma el3_new v : c_el s v = null ->
      (el3 v = null /\ forall u, In u CC -> In v (nb1 u) -> el2 v <> pm u) \/
      (el3 v = cov /\ exists u, In u CC /\ In v (nb1 u) /\ el2 v = pm u).
    Proof.
      intros E. destruct (el2_unc E) as [[E2 N]|(u & Hu & Hv & E2 & Hmin)].
      - left. split; [now apply el3_free|]. intros u Hu Hv. apply C_A in Hu as [Hu _]. now elim (N u Hu).
      - rewrite (el3_own Hu Hv E2). destruct (Nat.eqb_spec (D2 u) null) as [Ed|Nd].
        + right. split; auto. exists u. apply D2_A in Ed; auto.
        + left. split; auto. intros w Hw Hvw Ew. assert (w = u).
          { apply pm_inj; [now apply C_A in Hw|auto|congruence]. }
          subst. apply Nd. now apply D2_A.
    Qed.
    Lemma el3_two v : el3 v = cov \/ el3 v = null.
    Proof.
      destruct (i_el I v) as [E|E]; [left; now apply el3_cov|]. destruct (el3_new E) as [[]|[]]; auto.
    Qed.
    Lemma el3_null v : el3 v = null -> c_el s v = null.
    Proof. intros E. destruct (i_el I v) as [E'|E']; auto. apply el3_cov in E'. lia. Qed.

    Lemma D2_out v : ~ In v L -> D2 v = c_D s v.
    Proof.
      intros H. unfold D2, joined. destruct (mem v CC) eqn:E.
      - apply mem_In in E. apply C_A in E as [E _]. apply A_L in E. tauto.
      - unfold D1, degs. destruct (mem v L) eqn:E2; auto. apply mem_In in E2. tauto.
    Qed.
    Lemma D2_in v : In v L -> D2 v = null /\ (In v CC \/ nb1 v = []) \/
      (D2 v = bkt (length (nb1 v)) /\ D2 v < null /\ D2 v <= b /\ nb1 v <> [] /\ ~ In v CC /\ (~ In v AA -> D2 v < b)).
    Proof.
      intros H. unfold D2, joined. destruct (mem v CC) eqn:E; [apply mem_In in E; tauto|].
      assert (Hc : ~ In v CC) by (intros X; apply mem_In in X; congruence).
      unfold D1, degs. rewrite (proj2 (mem_In v L) H). unfold clamp. destruct (Nat.eqb_spec (length (nb1 v)) 0) as [E0|N0].
      - left. split; auto. right. now apply length_zero_iff_nil.
      - right. destruct L_facts as (_ & _ & HL & _). pose proof (proj1 (HL v) H) as [Hd Hb]. destruct (i_due I Hd) as (Hn & Hne & Ed).
        pose proof (nb1_len v) as H1. pose proof (i_len I v) as H3. specialize (Hfit Hn).
        pose proof (@bkt_mono (length (nb1 v)) (length (c_nb s v)) ltac:(lia) ltac:(lia)).
        pose proof (@bkt_mono (length (nb1 v)) (length (nbr v)) ltac:(lia) ltac:(lia)).
        split; auto. split; [lia|]. split; [lia|]. split; [intros E'; rewrite E' in N0; now simpl in N0|]. split; auto.
        intros Ha. destruct (le_lt_dec b (bkt (length (nb1 v)))) as [Hle|]; auto. exfalso. apply Ha. apply filter_In. split; auto.
        apply Nat.leb_le. apply (lv_thr Hlv); auto. lia.
    Qed.

    Lemma due'_spec v : due' v = true <-> (due v = true /\ ~ In v L) \/ (In v L /\ D2 v <> null).
    Proof.
      unfold due'. rewrite orb_true_iff, !andb_true_iff, !negb_true_iff, Nat.eqb_neq, mem_In.
      assert (mem v L = false <-> ~ In v L); [|tauto]. rewrite <- mem_In. destruct (mem v L); split; congruence.
    Qed.

    Lemma round_inv : INV s' due'.
    Proof.
      destruct L_facts as (LN & LE & LI & LB & t & LK). constructor; simpl; fold nb1; fold AA; fold pm; fold el2; fold CC; fold D1; fold D2; fold el3.
      - exists t, b. unfold due'. eapply BKI_rebucket with (d := c_D s); auto; try exact LK.
        + intros v Hv. apply mem_In in Hv. rewrite Hv. apply andb_false_r.
        + exact D2_out.
        + intros v Hv. destruct (D2_in Hv) as [[]|(_ & ? & ? & _)]; auto.
      - exact el3_two.
      - intros u x Hx. apply (i_sub I), nb1_incl, Hx.
      - intros u. pose proof (nb1_len u). pose proof (i_len I u). lia.
      - intros u Hu. apply (i_nodup I) in Hu. unfold nb1, packed. destruct (mem u L); auto. now apply NoDup_filter'.
      - intros u v Hv E. apply nb1_keep; auto. now apply el3_null.
      - intros u Hu. apply due'_spec in Hu as [[Hd Hn]|[Hu Hn]].
        + rewrite nb1_out, D2_out by auto. now apply (i_due I).
        + destruct (D2_in Hu) as [[]|(E1 & E2 & E3 & E4 & _)]; [tauto|]. split; [now apply L_lt|]. auto.
      - intros u Hu Hd. destruct (in_dec Nat.eq_dec u L) as [HL|HL].
        + destruct (D2_in HL) as [[E [Hc|Hc]]|(_ & E & _)].
          * left. apply in_app_iff. auto.
          * right. intros v Hv. destruct (i_el I v) as [Ev|Ev]; [now apply el3_cov|]. pose proof (nb1_keep Hv Ev) as X. rewrite Hc in X. destruct X.
          * exfalso. assert (X : due' u = true) by (apply due'_spec; right; split; auto; lia). congruence.
        + destruct (due u) eqn:Eu.
          * exfalso. assert (X : due' u = true) by (apply due'_spec; auto). congruence.
          * destruct (i_not I Hu Eu) as [Hc|Hc]; [left; apply in_app_iff; auto|right]. intros v Hv. apply el3_cov, Hc, Hv.
      - intros v E. destruct (i_el I v) as [Ev|Ev].
        + destruct (i_cov I Ev) as (u & A & B). exists u. split; auto. apply in_app_iff. auto.
        + destruct (el3_new Ev) as [[X _]|[_ (u & A & B & _)]]; [lia|]. exists u. split; [apply in_app_iff; auto|].
          apply (i_sub I), nb1_incl, B.
      - apply NoDup_app_iff. split; [apply (i_nd I)|]. split; [exact C_nodup|].
        intros u H1 H3. apply (i_cn I) in H1 as [_ H1]. apply C_A in H3 as [H3 _]. apply A_L in H3 as [H3 _]. apply LI in H3 as [H3 _]. congruence.
      - intros u Hu. apply in_app_iff in Hu as [Hu|Hu].
        + destruct (i_cn I Hu) as [X Y]. split; auto. destruct (due' u) eqn:Ed; auto. apply due'_spec in Ed as [[Z _]|[Z _]]; [congruence|].
          apply LI in Z as [Z _]. congruence.
        + pose proof (C_A Hu) as [Ha _]. pose proof (A_L Ha) as [Hl _]. split; [now apply L_lt|].
          destruct (due' u) eqn:Ed; auto. apply due'_spec in Ed as [[_ Z]|[_ Z]]; [tauto|]. elim Z. now apply D2_A.
    Qed.

    (* progress *)
    Definition load (D : nat -> nat) (du : nat -> bool) : nat :=
      list_sum (map (fun v => if du v then S (D v) else 0) (seq 0 n)).
    Lemma round_load : load (c_D s') due' < load (c_D s) due.
    Proof.
      destruct L_facts as (LN & LE & LI & LB & t & LK). change (c_D s') with D2. unfold load.
      assert (Hle : forall v, (if due' v then S (D2 v) else 0) <= (if due v then S (c_D s v) else 0)).
      { intros v. destruct (due' v) eqn:Ed; [|lia]. apply due'_spec in Ed as [[A B]|[A B]].
        - rewrite A, D2_out by auto. lia.
        - pose proof (proj1 (LI v) A) as [Hd Hb]. rewrite Hd, Hb. destruct (D2_in A) as [[]|(_ & _ & ? & _)]; [tauto|lia]. }
      assert (Hlt : exists v, v < n /\ (if due' v then S (D2 v) else 0) < (if due v then S (c_D s v) else 0)).
      { assert (Hex : exists v, In v L /\ (D2 v = null \/ D2 v < b)).
        { destruct (list_eq_dec Nat.eq_dec AA []) as [Ea|Na].
          - destruct L as [|v l] eqn:EL; [congruence|]. rewrite <- EL in *. assert (Hv : In v L) by (rewrite EL; now left). exists v. split; auto.
            destruct (D2_in Hv) as [[]|(_ & _ & _ & _ & _ & X)]; auto. right. apply X. rewrite Ea. tauto.
          - pose proof (first_joins Na) as Hc. destruct CC as [|u l] eqn:EC; [congruence|].
            assert (Hu : In u CC) by (rewrite EC; now left). pose proof (C_A Hu) as [Ha _]. exists u. split; [now apply A_L in Ha|].
            left. now apply D2_A. }
        destruct Hex as (v & Hv & Hx). exists v. split; [now apply L_lt|]. pose proof (proj1 (LI v) Hv) as [Hd Hb]. rewrite Hd, Hb.
        destruct (due' v) eqn:Ed; [|lia]. apply due'_spec in Ed as [[_ A]|[_ A]]; [tauto|]. lia. }
      destruct Hlt as (v & Hv & Hlt).
      assert (X : forall (f g : nat -> nat) l, (forall x, f x <= g x) -> list_sum (map f l) <= list_sum (map g l) /\ (In v l -> f v < g v -> list_sum (map f l) < list_sum (map g l))).
      { intros f g l Hfg. induction l as [|x l [IH1 IH2]]; simpl; [split; [lia|tauto]|]. specialize (Hfg x). split; [lia|].
        intros [->|Hin] Hl; [lia|]. specialize (IH2 Hin Hl). lia. }
      destruct (X (fun v => if due' v then S (D2 v) else 0) (fun v => if due v then S (c_D s v) else 0) (seq 0 n) Hle) as [_ Y].
      apply Y; auto. apply in_seq. lia.
    Qed.
  End One.
End Round.
