(* Proofs for C78: a round of hooking roots along edges, recording the edges, and compressing. *)
From Coq Require Import Permutation.
From Verif Require Import Base ListUtil UFSpec FRSpec SPProofs JATree SVModel LTModel RSModel.
From Verif Require JAForest SVProofs.
Unset Strict Implicit.
Notation glist := JAForest.glist.

Section Rounds.
  Variable n : nat.
  Variable E : list (nat * nat).       (* the edges that may be recorded *)

  Record finv (g : nat -> option (nat * nat)) (P : nat -> nat) : Prop := {
    f_forest : forest' (glist g (seq 0 n));
    f_in : forall x y, In (x, y) (glist g (seq 0 n)) -> x < n /\ y < n /\ In (x, y) E;
    f_conn : forall x y, x < n -> y < n -> (connected (glist g (seq 0 n)) x y <-> same P x y);
    f_root : forall x, x < n -> P x = x -> g x = None }.

  Lemma link_finv key g P a b x y : tree n key P -> finv g P -> In (x, y) E -> x < n -> y < n ->
    P a = a -> kl key a b -> a < n -> b < n -> (same P x a /\ same P y b) \/ (same P y a /\ same P x b) ->
    tree n key (fset P a b) /\ finv (fset g a (Some (x, y))) (fset P a b) /\
    (forall p q, p < n -> q < n -> same P p q -> same (fset P a b) p q).
  Proof.
    intros HT F Hin Hx Hy Er Hk Ha Hbn Hac.
    assert (Hg : g a = None) by now apply (f_root F).
    destruct (rooted_ex HT Hbn) as (s0 & Hs0 & Rs).
    set (P' := fset P a b).
    assert (HT' : tree n key P').
    { intros z Hz. destruct (HT _ Hz) as (A & B & C). unfold P'. destruct (Nat.eq_dec z a) as [->|Hza].
      - rewrite fset_same. auto.
      - rewrite fset_other by auto. auto. }
    assert (R' : forall x, x < n -> forall r, rooted P x r -> rooted P' x (if r =? a then s0 else r)).
    { apply (@link_rooted n key P P' a b s0 HT); auto; unfold P'; [now rewrite fset_same|intros; now rewrite fset_other]. }
    assert (Ra : rooted P a a) by now apply r_here.
    assert (Hsa : s0 <> a).
    { intros ->. pose proof (R' _ Ha _ Ra) as X. rewrite Nat.eqb_refl in X. apply rooted_fix in X. unfold P' in X.
      rewrite fset_same in X. subst b. exact (kl_neq Hk eq_refl). }
    assert (Hold : forall p q, p < n -> q < n -> same P p q -> same P' p q).
    { intros p q Hp Hq (r & A & B). exists (if r =? a then s0 else r). auto. }
    assert (Hab : same P' a b).
    { exists s0. split.
      - pose proof (R' _ Ha _ Ra) as X. now rewrite Nat.eqb_refl in X.
      - pose proof (R' _ Hbn _ Rs) as X. destruct (Nat.eqb_spec s0 a); [congruence|exact X]. }
    split; auto. split; auto.
    pose proof (@JAForest.glist_set g a (x, y) n Ha Hg) as HP. set (T := glist g (seq 0 n)) in *.
    set (T' := glist (fset g a (Some (x, y))) (seq 0 n)) in *.
    assert (Hxy : same P' x y).
    { destruct Hac as [[A B]|[A B]].
      - apply same_trans with a; auto. apply same_trans with b; auto. apply same_sym. auto.
      - apply same_trans with b; auto. apply same_trans with a; [now apply same_sym|]. apply same_sym. auto. }
    assert (Hdiff : ~ same P x y).
    { intros S. assert (S' : same P a b).
      { destruct Hac as [[A B]|[A B]].
        - apply same_trans with x; [now apply same_sym|]. apply same_trans with y; auto.
        - apply same_trans with y; [now apply same_sym|]. apply same_trans with x; auto. now apply same_sym. }
      destruct S' as (r & A & B). apply Hsa. rewrite (rooted_det Rs B). symmetry. exact (rooted_det Ra A). }
    assert (HinT : forall e, In e T' <-> In e T \/ e = (x, y)).
    { intros e. rewrite (Permutation_in' eq_refl HP). rewrite in_app_iff. simpl. intuition auto. }
    split; fold T'.
    - apply forest'_perm with (T ++ [(x, y)]); [now apply Permutation_sym|]. apply forest'_snoc; [apply (f_forest F)|].
      intros Hcn. apply Hdiff. now apply (f_conn F).
    - intros p q Hpq. apply HinT in Hpq as [Hpq|Hpq]; [now apply (f_in F)|]. injection Hpq as -> ->. auto.
    - intros p q Hp Hq. split.
      + intros Hcn. assert (X : p = q \/ (p < n /\ q < n /\ same P' p q)).
        { clear Hp Hq. induction Hcn as [c d Hc|c|c d _ IH|c d e _ IH1 _ IH2]; auto.
          - right. apply HinT in Hc as [Hc|Hc].
            + destruct (f_in F Hc) as (A & B & _). repeat (split; auto). apply Hold; auto. apply (f_conn F); auto. now apply rst_step.
            + injection Hc as -> ->. auto.
          - destruct IH as [->|(A & B & S)]; auto. right. repeat (split; auto). now apply same_sym.
          - destruct IH1 as [->|(A & B & S)]; auto. destruct IH2 as [<-|(A' & B' & S')]; auto.
            right. repeat (split; auto). eapply same_trans; eauto. }
        destruct X as [->|(_ & _ & X)]; auto. eapply same_refl; eauto.
      + intros (r & A & B).
        assert (Hsub : forall p q, p < n -> q < n -> same P p q -> connected T' p q).
        { intros p0 q0 Hp0 Hq0 S. apply (@JAForest.conn_mono T); [intros e He; apply HinT; auto|]. now apply (f_conn F). }
        assert (Cac : connected T' a b).
        { assert (Cxy : connected T' x y) by (apply rst_step; apply HinT; auto).
          destruct Hac as [[A1 B1]|[A1 B1]].
          - eapply JAForest.ctrans; [apply Hsub; [| |apply same_sym; exact A1]; auto|]. eapply JAForest.ctrans; [exact Cxy|]. apply Hsub; auto.
          - eapply JAForest.ctrans; [apply Hsub; [| |apply same_sym; exact A1]; auto|]. eapply JAForest.ctrans; [apply JAForest.csym; exact Cxy|]. apply Hsub; auto. }
        destruct (rooted_ex HT Hp) as (rp & Hrp & Rp). destruct (rooted_ex HT Hq) as (rq & Hrq & Rq).
        pose proof (rooted_det A (R' _ Hp _ Rp)) as E1. pose proof (rooted_det B (R' _ Hq _ Rq)) as E2.
        assert (Cr : forall z w, z < n -> w < n -> rooted P z w -> connected T' z w).
        { intros z w Hz Hw Rz. apply Hsub; auto. exists w. split; auto. apply r_here. eapply rooted_fix; eauto. }
        assert (Cas : connected T' a s0) by (eapply JAForest.ctrans; [exact Cac|]; auto).
        destruct (Nat.eqb_spec rp a) as [->|N1], (Nat.eqb_spec rq a) as [->|N2].
        * eapply JAForest.ctrans; [apply Cr; [| |exact Rp]; auto|apply JAForest.csym; auto].
        * assert (rq = s0) as -> by congruence. eapply JAForest.ctrans; [apply Cr; [| |exact Rp]; auto|].
          eapply JAForest.ctrans; [exact Cas|apply JAForest.csym; auto].
        * assert (rp = s0) as -> by congruence. eapply JAForest.ctrans; [apply Cr; [| |exact Rp]; auto|].
          eapply JAForest.ctrans; [apply JAForest.csym; exact Cas|apply JAForest.csym; auto].
        * assert (rp = rq) as -> by congruence. eapply JAForest.ctrans; [apply Cr; [| |exact Rp]; auto|apply JAForest.csym; auto].
    - intros z Hz Hr. unfold P' in Hr. destruct (Nat.eq_dec z a) as [->|Hza]; [rewrite fset_same in Hr; subst b; exfalso; exact (kl_neq Hk eq_refl)|].
      rewrite fset_other in Hr by auto. rewrite fset_other by auto. now apply (f_root F).
  Qed.

  (* only the values below n matter *)
  Lemma same_ext P P' : (forall x, x < n -> P' x = P x) -> (forall x, x < n -> P x < n) -> forall x y, x < n -> y < n -> same P x y -> same P' x y.
  Proof.
    intros He Hl x y Hx Hy (r & A & B).
    assert (X : forall z s, rooted P z s -> z < n -> rooted P' z s).
    { induction 1 as [z Ez|z s Ez R IH]; intros Hz; [apply r_here; rewrite He; auto|apply r_up; rewrite He; auto]. }
    exists r. auto.
  Qed.
  Lemma finv_ext g P g' P' : (forall x, x < n -> P' x = P x) -> (forall x, x < n -> P x < n) -> (forall x, x < n -> g' x = g x) -> finv g P -> finv g' P'.
  Proof.
    intros He Hl Hg [A B C D].
    assert (X : glist g' (seq 0 n) = glist g (seq 0 n)) by (apply JAForest.glist_ext; intros x Hx; apply in_seq in Hx; apply Hg; lia).
    split; rewrite ?X; auto.
    - intros x y Hx Hy. rewrite C by auto. split; apply same_ext; auto.
      + intros z Hz. now rewrite He.
      + intros z Hz. rewrite He; auto.
    - intros x Hx Ex. rewrite Hg by auto. apply D; auto. now rewrite <- He.
  Qed.

  Definition flat (P : nat -> nat) : Prop := forall x, x < n -> P x < n /\ P (P x) = P x.
  Lemma same_flat P x y : flat P -> x < n -> y < n -> (same P x y <-> P x = P y).
  Proof.
    intros HF Hx Hy. assert (X : forall z, z < n -> rooted P z (P z)) by (intros z Hz; apply rooted_up, r_here; now apply HF).
    split.
    - intros (r & A & B). rewrite (rooted_det (X _ Hx) A). exact (rooted_det B (X _ Hy)).
    - intros H. exists (P x). split; auto. rewrite H. auto.
  Qed.

  (* some roots of P hooked to smaller roots along edges, which are recorded *)
  Definition hooked (P : nat -> nat) (g : nat -> option (nat * nat)) (Q : nat -> nat) (g' : nat -> option (nat * nat)) : Prop :=
    forall x, x < n -> (Q x = P x /\ g' x = g x) \/
      (P x = x /\ Q x < x /\ P (Q x) = Q x /\ exists u v, g' x = Some (u, v) /\ In (u, v) E /\ u < n /\ v < n /\
        ((P u = x /\ P v = Q x) \/ (P v = x /\ P u = Q x))).

  Section Round.
    Variables P Q : nat -> nat.
    Variables g g' : nat -> option (nat * nat).
    Hypothesis HF : flat P.
    Hypothesis HI : finv g P.
    Hypothesis HH : hooked P g Q g'.
    Let rk x := if P x =? x then n - x else 0.
    Lemma Q_lt x : x < n -> Q x < n.
    Proof. intros Hx. destruct (HH Hx) as [[-> _]|(_ & H & _)]; [now apply HF|lia]. Qed.
    Lemma P_tree : tree n rk P.
    Proof.
      intros x Hx. destruct (HF Hx) as [A B]. split; auto. unfold rk, kl. split; [destruct (P x =? x); lia|]. intros Hne.
      rewrite B, Nat.eqb_refl. apply Nat.eqb_neq in Hne. rewrite Hne. lia.
    Qed.
    (* the hooks of the roots below k *)
    Let Qk k x := if x <? k then Q x else P x.
    Let gk k x := if x <? k then g' x else g x.
    Lemma hooks_ok k : k <= n -> tree n rk (Qk k) /\ finv (gk k) (Qk k) /\ (forall p q, p < n -> q < n -> same P p q -> same (Qk k) p q).
    Proof.
      induction k as [|k IH]; intros Hk.
      - split; [exact P_tree|]. split; [exact HI|auto].
      - destruct (IH ltac:(lia)) as (T & F & M).
        destruct (HH (x := k) ltac:(lia)) as [[E1 E2]|(E1 & E2 & E3 & u & v & E4 & Hin & Hu & Hv & He)].
        + assert (X : forall x, Qk (S k) x = Qk k x).
          { intros x. unfold Qk. destruct (Nat.ltb_spec x (S k)), (Nat.ltb_spec x k); auto; try lia. now replace x with k by lia. }
          assert (Y : forall x, gk (S k) x = gk k x).
          { intros x. unfold gk. destruct (Nat.ltb_spec x (S k)), (Nat.ltb_spec x k); auto; try lia. now replace x with k by lia. }
          split; [intros x Hx; rewrite X; now apply T|]. split; [apply (finv_ext (g := gk k) (P := Qk k)); auto; intros x Hx; now apply T|].
          intros p q Hp Hq S. apply (same_ext (P := Qk k)); auto. intros x Hx. now apply T.
        + assert (Hkk : Qk k k = k) by (unfold Qk; rewrite Nat.ltb_irrefl; auto).
          assert (SP : forall z, z < n -> same P z (P z)) by (intros z Hz; eapply same_up; eauto using P_tree).
          destruct (@link_finv rk (gk k) (Qk k) k (Q k) u v T F) as (T' & F' & M'); auto; try lia.
          { unfold kl, rk. rewrite E1, E3, !Nat.eqb_refl. lia. }
          { assert (Su : same (Qk k) u (P u)) by (apply M; auto; now apply HF).
            assert (Sv : same (Qk k) v (P v)) by (apply M; auto; now apply HF).
            destruct He as [[He1 He2]|[He1 He2]]; [rewrite He1 in Su; rewrite He2 in Sv|rewrite He2 in Su; rewrite He1 in Sv]; auto. }
          assert (X : forall x, fset (Qk k) k (Q k) x = Qk (S k) x).
          { intros x. unfold Qk, fset. destruct (Nat.eqb_spec x k) as [->|Hne].
            - destruct (Nat.ltb_spec k (S k)); auto; lia.
            - destruct (Nat.ltb_spec x (S k)), (Nat.ltb_spec x k); auto; lia. }
          assert (Y : forall x, fset (gk k) k (Some (u, v)) x = gk (S k) x).
          { intros x. unfold gk, fset. destruct (Nat.eqb_spec x k) as [->|Hne].
            - destruct (Nat.ltb_spec k (S k)); auto; lia.
            - destruct (Nat.ltb_spec x (S k)), (Nat.ltb_spec x k); auto; lia. }
          split; [intros x Hx; rewrite <- X; now apply T'|].
          split; [eapply finv_ext; [| | |exact F']; auto; intros x Hx; now apply T'|].
          intros p q Hp Hq S. apply (same_ext (P := fset (Qk k) k (Q k))); auto. intros x Hx. now apply T'.
    Qed.
    Lemma hook_ok : tree n rk Q /\ finv g' Q /\ (forall p q, p < n -> q < n -> same P p q -> same Q p q).
    Proof.
      destruct (hooks_ok (le_n n)) as (T & F & M).
      assert (X : forall x, x < n -> Q x = Qk n x) by (intros x Hx; unfold Qk; apply Nat.ltb_lt in Hx; now rewrite Hx).
      assert (Y : forall x, x < n -> g' x = gk n x) by (intros x Hx; unfold gk; apply Nat.ltb_lt in Hx; now rewrite Hx).
      split; [intros x Hx; rewrite X by auto; now apply T|]. split.
      - eapply finv_ext; [| | |exact F]; auto. intros x Hx. now apply T.
      - intros p q Hp Hq S. apply (same_ext (P := Qk n)); auto. intros x Hx. now apply T.
    Qed.
    (* compressing *)
    Lemma round_ok R : SVProofs.rooted n Q R -> flat R /\ finv g' R /\ (forall x y, x < n -> y < n -> P x = P y -> R x = R y).
    Proof.
      intros HR. destruct hook_ok as (T & F & M).
      assert (X : forall x r, rooted Q x r -> x < n -> R x = r).
      { induction 1 as [x Ex|x r Ex R0 IH]; intros Hx.
        - now apply (HR x Hx).
        - destruct (HR x Hx) as (_ & A & _). rewrite <- A. apply IH. now apply T. }
      assert (RR : forall x, x < n -> rooted Q x (R x)).
      { intros x Hx. destruct (rooted_ex T Hx) as (r & _ & R0). now rewrite (X _ _ R0 Hx). }
      assert (FR : flat R).
      { intros x Hx. destruct (HR x Hx) as (A & _ & _). split; auto. apply (HR _ A). eapply rooted_fix; eauto. }
      assert (SR : forall x y, x < n -> y < n -> (same R x y <-> same Q x y)).
      { intros x y Hx Hy. rewrite same_flat by auto. split.
        - intros H. exists (R x). split; auto. rewrite H. auto.
        - intros (r & A & B). rewrite (X _ _ A Hx). symmetry. now apply X. }
      split; auto. split.
      - destruct F as [F1 F2 F3 F4]. split; auto.
        + intros x y Hx Hy. rewrite F3, SR; tauto.
        + intros x Hx Hr. apply F4; auto. now apply (HR x Hx).
      - intros x y Hx Hy H. apply same_flat; auto. apply SR; auto. apply M; auto. apply same_flat; auto.
    Qed.
  End Round.
End Rounds.

