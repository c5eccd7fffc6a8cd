(* The edges recorded by the union-find with linking by rank form a spanning forest. *)
From Coq Require Import Permutation.
From Verif Require Import Base ListUtil UFSpec FRSpec FRProofs SPProofs JAModel JATree JAProofs JASys.
Unset Strict Implicit.

(* the entries of an array of edges *)
Definition glist (g : nat -> option (nat * nat)) (l : list nat) : list (nat * nat) :=
  flat_map (fun i => match g i with Some e => [e] | None => [] end) l.
Lemma glist_ext g h l : (forall x, In x l -> g x = h x) -> glist g l = glist h l.
Proof. unfold glist. induction l as [|x l IH]; intros H; simpl; auto. rewrite (H x) by now left. rewrite IH; auto. intros y Hy. apply H. now right. Qed.
Lemma glist_set g a e n : a < n -> g a = None -> Permutation (glist (fset g a (Some e)) (seq 0 n)) (glist g (seq 0 n) ++ [e]).
Proof.
  intros Ha Hg. replace n with (a + (1 + (n - S a))) by lia. rewrite seq_app. unfold glist. rewrite !flat_map_app. simpl.
  rewrite fset_same, Hg. simpl.
  assert (E1 : flat_map (fun i => match fset g a (Some e) i with Some e0 => [e0] | None => [] end) (seq 0 a) = glist g (seq 0 a)).
  { apply glist_ext. intros x Hx. apply in_seq in Hx. apply fset_other. lia. }
  assert (E2 : flat_map (fun i => match fset g a (Some e) i with Some e0 => [e0] | None => [] end) (seq (S a) (n - S a)) = glist g (seq (S a) (n - S a))).
  { apply glist_ext. intros x Hx. apply in_seq in Hx. apply fset_other. lia. }
  rewrite E1, E2. fold (glist g (seq 0 a)). fold (glist g (seq (S a) (n - S a))).
  rewrite <- app_assoc. apply Permutation_app_head. apply Permutation_cons_append.
Qed.
Lemma in_glist g n e : In e (glist g (seq 0 n)) <-> exists x, x < n /\ g x = Some e.
Proof.
  unfold glist. rewrite in_flat_map. split.
  - intros (x & Hx & H). apply in_seq in Hx. exists x. split; [lia|]. destruct (g x); [destruct H as [->|[]]; auto|easy].
  - intros (x & Hx & H). exists x. split; [apply in_seq; lia|]. rewrite H. now left.
Qed.

Lemma ctrans T x y z : connected T x y -> connected T y z -> connected T x z.
Proof. apply rst_trans. Qed.
Lemma csym T x y : connected T x y -> connected T y x.
Proof. apply rst_sym. Qed.

Section Forest.
  Variable n : nat.
  Variable two : bool.
  Variable E : list (nat * nat).       (* the edges that may be recorded *)

  Record fst_inv (g : nat -> option (nat * nat)) (m : mem) : Prop := {
    f_forest : forest' (glist g (seq 0 n));
    f_in : forall x y, In (x, y) (glist g (seq 0 n)) -> x < n /\ y < n /\ In (x, y) E;
    f_conn : forall x y, x < n -> y < n -> (connected (glist g (seq 0 n)) x y <-> same (up m) x y);
    f_root : forall x, x < n -> rt m x = true -> g x = None }.
  (* entries not written yet belong to a call about to write them *)
  Definition pend (g : nat -> option (nat * nat)) (m : mem) (ts : list tstate) : Prop :=
    (forall x, x < n -> ed m x = g x \/ exists t x0 y0 u v, nth_error ts t = Some (L6 x0 y0 u v x) /\ g x = Some (x0, y0)) /\
    (forall t x0 y0 u v x, nth_error ts t = Some (L6 x0 y0 u v x) -> g x = Some (x0, y0)).

  Lemma conn_mono (T T' : list (nat * nat)) x y : incl T T' -> connected T x y -> connected T' x y.
  Proof.
    intros H C. induction C as [a b C|a|a b _ IH|a b c _ IH1 _ IH2]; [apply rst_step; auto|apply rst_refl|now apply rst_sym|eapply rst_trans; eauto].
  Qed.

  Lemma link_forest key key' g m m' s s' x y u v a : good n key m -> good n key' m' -> fst_inv g m ->
    s' = L6 x y u v a -> In (x, y) E -> linked_by n m m' s s' -> (forall z, z <> a -> rt m' z = rt m z) ->
    fst_inv (fset g a (Some (x, y))) m' /\ g a = None.
  Proof.
    intros G G' F Es Hin (x' & y' & u' & v' & a' & c & Es' & Ea & Ea' & Ha & Hc & Hx & Hy & Hac & _ & R) Hrt.
    rewrite Es in Es'. injection Es' as <- <- <- <- <-.
    assert (Hg : g a = None) by now apply (f_root F). split; auto.
    destruct (rooted_ex (good_tree G) Hc) as (s0 & Hs0 & Rs). destruct (R s0 Rs) as [Hsa R'].
    assert (Ra : rooted (up m) a a) by (apply r_here, up_root; auto).
    pose proof (@glist_set g a (x, y) n Ha Hg) as HP. set (T := glist g (seq 0 n)) in *.
    set (T' := glist (fset g a (Some (x, y))) (seq 0 n)) in *.
    assert (Hold : forall p q, p < n -> q < n -> same (up m) p q -> same (up m') p q).
    { intros p q Hp Hq (r & A & B). exists (if r =? a then s0 else r). split; now apply R'. }
    assert (Hnew : same (up m') a c).
    { exists s0. pose proof (R' _ Ha _ Ra) as A. rewrite Nat.eqb_refl in A. split; auto.
      pose proof (R' _ Hc _ Rs) as B. destruct (Nat.eqb_spec s0 a); congruence. }
    assert (Hxy : same (up m') x y).
    { destruct Hac as [[A B]|[A B]].
      - apply same_trans with a; [apply same_sym; auto|]. apply same_trans with c; auto.
      - apply same_trans with c; [apply same_sym; auto|]. apply same_trans with a; [now apply same_sym|auto]. }
    assert (Hdiff : ~ same (up m) x y).
    { intros S. assert (S' : same (up m) a c).
      { destruct Hac as [[A B]|[A B]].
        - apply same_trans with x; auto. apply same_trans with y; auto. now apply same_sym.
        - apply same_trans with y; auto. apply same_trans with x; [now apply same_sym|]. now apply same_sym. }
      destruct S' as (r & A & B). apply Hsa. rewrite (rooted_det Rs B). symmetry. exact (rooted_det Ra A). }
    assert (HinT : forall e, In e T' <-> In e T \/ e = (x, y)).
    { intros e. rewrite (Permutation_in' eq_refl HP). rewrite in_app_iff. simpl. intuition auto. }
    split; fold T'.
    - apply forest'_perm with (T ++ [(x, y)]); [now apply Permutation_sym|]. apply forest'_snoc; [apply (f_forest F)|].
      intros Hcn. apply Hdiff. now apply (f_conn F).
    - intros p q Hpq. apply HinT in Hpq as [Hpq|Hpq]; [now apply (f_in F)|]. injection Hpq as -> ->. auto.
    - intros p q Hp Hq. split.
      + intros Hcn. assert (X : p = q \/ (p < n /\ q < n /\ same (up m') p q)).
        { clear Hp Hq. induction Hcn as [b d Hb|b|b d _ IH|b d e _ IH1 _ IH2]; auto.
          - right. apply HinT in Hb as [Hb|Hb].
            + destruct (f_in F Hb) as (A & B & _). repeat (split; auto). apply Hold; auto. apply (f_conn F); auto. now apply rst_step.
            + injection Hb as -> ->. auto.
          - destruct IH as [->|(A & B & S)]; auto. right. repeat (split; auto). now apply same_sym.
          - destruct IH1 as [->|(A & B & S)]; auto. destruct IH2 as [<-|(A' & B' & S')]; auto.
            right. repeat (split; auto). eapply same_trans; eauto. }
        destruct X as [->|(_ & _ & X)]; auto. eapply same_refl; eauto using good_tree.
      + intros (r & A & B).
        assert (Hsub : forall p q, p < n -> q < n -> same (up m) p q -> connected T' p q).
        { intros p0 q0 Hp0 Hq0 S. apply conn_mono with T; [intros e He; apply HinT; auto|]. now apply (f_conn F). }
        assert (Cac : connected T' a c).
        { assert (Cxy : connected T' x y) by (apply rst_step; apply HinT; auto).
          destruct Hac as [[A1 B1]|[A1 B1]].
          - eapply ctrans; [apply Hsub; [| |exact A1]; auto|]. eapply ctrans; [exact Cxy|]. apply Hsub; auto. now apply same_sym.
          - eapply ctrans; [apply Hsub; [| |exact A1]; auto|]. eapply ctrans; [apply csym; exact Cxy|]. apply Hsub; auto. now apply same_sym. }
        destruct (rooted_ex (good_tree G) Hp) as (rp & Hrp & Rp). destruct (rooted_ex (good_tree G) Hq) as (rq & Hrq & Rq).
        pose proof (rooted_det A (R' _ Hp _ Rp)) as E1. pose proof (rooted_det B (R' _ Hq _ Rq)) as E2.
        assert (Cr : forall z w, z < n -> w < n -> rooted (up m) z w -> connected T' z w).
        { intros z w Hz Hw Rz. apply Hsub; auto. exists w. split; auto. apply r_here. eapply rooted_fix; eauto. }
        assert (Cas : connected T' a s0) by (eapply ctrans; [exact Cac|]; auto).
        destruct (Nat.eqb_spec rp a) as [->|N1], (Nat.eqb_spec rq a) as [->|N2].
        * eapply ctrans; [apply Cr; [| |exact Rp]; auto|apply csym; auto].
        * assert (rq = s0) as -> by congruence. eapply ctrans; [apply Cr; [| |exact Rp]; auto|].
          eapply ctrans; [exact Cas|apply csym; auto].
        * assert (rp = s0) as -> by congruence. eapply ctrans; [apply Cr; [| |exact Rp]; auto|].
          eapply ctrans; [apply csym; exact Cas|apply csym; auto].
        * assert (rp = rq) as -> by congruence. eapply ctrans; [apply Cr; [| |exact Rp]; auto|apply csym; auto].
    - intros z Hz Hr. destruct (Nat.eq_dec z a) as [->|Hza]; [congruence|]. rewrite fset_other by auto. apply (f_root F); auto. now rewrite <- Hrt.
  Qed.

  Lemma keep_forest key g m m' : good n key m -> fst_inv g m -> trees_kept n m m' -> fst_inv g m'.
  Proof.
    intros G F [K Hrt]. destruct F as [F1 F2 F3 F4]. split; auto.
    - intros x y Hx Hy. rewrite F3 by auto. split.
      + intros (r & A & B). exists r. split; now apply K.
      + intros (r & A & B). destruct (rooted_ex (good_tree G) Hx) as (rx & _ & Rx). destruct (rooted_ex (good_tree G) Hy) as (ry & _ & Ry).
        pose proof (rooted_det A (K _ Hx _ Rx)). pose proof (rooted_det B (K _ Hy _ Ry)). exists r. split; congruence.
    - intros x Hx. rewrite Hrt. auto.
  Qed.

  Lemma exec_forest js : (forall x y, In (Insert x y) js -> In (x, y) E) -> forall sched s key g,
    inv n js key s -> fst_inv g (fst s) -> pend g (fst s) (snd s) ->
    exists g', fst_inv g' (fst (exec n two sched s)) /\ pend g' (fst (exec n two sched s)) (snd (exec n two sched s)).
  Proof.
    intros HE. induction sched as [|c sched IH]; intros s key g I F P; simpl; [eauto|].
    destruct (sys_step_ok two c I) as (k1 & I1 & L1 & [Es|(j & st & st' & Ej & Est & J & Ht & El & R & D)]).
    { rewrite Es. eapply IH; eauto. }
    set (s1 := sys_step n two s c) in *.
    assert (Hlen : fst c < length (snd s)) by (apply nth_error_Some; congruence).
    destruct R as [K|Lk].
    - apply (IH s1 k1 g); auto; [eapply keep_forest; eauto; apply I|].
      assert (Hno : forall x y u v a, st' <> L6 x y u v a).
      { intros x y u v a ->. unfold tstep in Ht. destruct (negb (is_done st) && (n <=? taddr st)); [discriminate|].
        destruct st; try discriminate.
        - destruct (fstep two (fst s) f) as [m1 [f'|r]]; discriminate.
        - destruct (fstep two (fst s) f) as [m1 [f'|r]]; try discriminate. destruct (u0 =? r); discriminate.
        - revert Ht. cbv zeta. destruct (negb tu || negb tv); [discriminate|]. destruct (ru <? rv); [discriminate|].
          destruct (rv <? ru); [discriminate|]. destruct (u0 <? v0); discriminate.
        - destruct (holds (fst s) a0 ep er true) eqn:Hh; [|discriminate]. destruct nb; [discriminate|].
          injection Ht as Hm _ _ _ _ _. destruct K as [_ K]. specialize (K a0). rewrite <- Hm in K. simpl in K. rewrite fset_same in K.
          apply holds_iff in Hh as (_ & _ & Hh). congruence.
        - destruct (fstep two (fst s) f) as [m1 [f'|r]]; discriminate.
        - destruct (fstep two (fst s) f) as [m1 [f'|r]]; discriminate.
        - destruct (fstep two (fst s) f) as [m1 [f'|r]]; discriminate. }
      destruct P as [P1 P2]. split.
      + intros x Hx. destruct (P1 x Hx) as [Ex|(t & x0 & y0 & u & v & Et & Eg)].
        * left. destruct D as [-> |(x0 & y0 & u & v & a & -> & ->)]; auto. simpl.
          destruct (Nat.eq_dec x a) as [->|Hxa]; [|now rewrite fset_other]. rewrite fset_same. symmetry. eapply P2; eauto.
        * destruct (Nat.eq_dec t (fst c)) as [->|Htc].
          -- left. assert (st = L6 x0 y0 u v x) by congruence. subst st.
             destruct D as [D|(x1 & y1 & u1 & v1 & a & Ea & Em)].
             ++ unfold tstep in Ht. destruct (negb (is_done (L6 x0 y0 u v x)) && (n <=? taddr (L6 x0 y0 u v x))) eqn:Eb.
                ** exfalso. apply andb_true_iff in Eb as [_ Eb]. simpl in Eb. apply Nat.leb_le in Eb. lia.
                ** injection Ht as Hm _. rewrite <- Hm. simpl. rewrite fset_same. now symmetry.
             ++ rewrite Em. injection Ea as <- <- <- <- <-. simpl. rewrite fset_same. now symmetry.
          -- right. exists t, x0, y0, u, v. split; auto. rewrite El. rewrite nth_error_lset_other; auto.
      + intros t x0 y0 u v x Et. rewrite El in Et. destruct (Nat.eq_dec t (fst c)) as [->|Htc].
        * rewrite nth_error_lset_same in Et by auto. exfalso. eapply Hno. injection Et as ->. reflexivity.
        * rewrite nth_error_lset_other in Et by auto. eapply P2; eauto.
    - pose proof Lk as (x & y & u & v & a & cc & Es' & Ea & Ea' & Ha & _ & _ & _ & _ & (ep & er & nr & Est') & _).
      assert (Hin : In (x, y) E).
      { apply HE. subst st. destruct j as [u0 v0|u0 v0|i]; simpl in J.
        - destruct J as (_ & _ & [[J _]|(r & J & _)]); [|discriminate]. injection J as -> ->. eapply nth_error_In; eauto.
        - destruct J; discriminate.
        - destruct J as (_ & [(f & J & _)|(r & J & _)]); discriminate. }
      assert (Hm : fst s1 = set_vdata (fst s) a cc nr false).
      { subst st st'. unfold tstep in Ht. destruct (negb (is_done (L5 x y u v a cc ep er nr false)) && (n <=? taddr (L5 x y u v a cc ep er nr false))); [discriminate|].
        destruct (holds (fst s) a ep er true); congruence. }
      destruct (@link_forest key k1 g (fst s) (fst s1) st st' x y u v a) as [F' Hg]; auto; [apply I|apply I1| |].
      { intros z Hz. rewrite Hm. simpl. now rewrite fset_other. }
      apply (IH s1 k1 (fset g a (Some (x, y)))); auto.
      destruct P as [P1 P2]. split.
      + intros z Hz. destruct (Nat.eq_dec z a) as [->|Hza].
        * right. exists (fst c), x, y, u, v. rewrite El, Es', nth_error_lset_same by auto. rewrite fset_same. auto.
        * rewrite fset_other by auto. destruct (P1 z Hz) as [Ez|(t & x0 & y0 & u0 & v0 & Et & Eg)].
          -- left. rewrite Hm. simpl. auto.
          -- right. exists t, x0, y0, u0, v0. split; auto. rewrite El. rewrite nth_error_lset_other; auto.
             intros Htt. assert (X : Some (L6 x0 y0 u0 v0 z) = Some st) by (rewrite <- Et, <- Est; f_equal; auto). congruence.
      + intros t x0 y0 u0 v0 z Et. rewrite El in Et. destruct (Nat.eq_dec t (fst c)) as [->|Htc].
        * rewrite nth_error_lset_same in Et by auto. assert (Ez : L6 x y u v a = L6 x0 y0 u0 v0 z) by congruence.
          injection Ez as <- <- <- <- <-. now rewrite fset_same.
        * rewrite nth_error_lset_other in Et by auto. pose proof (P2 _ _ _ _ _ _ Et) as Eg.
          rewrite fset_other; auto. intros ->. congruence.
  Qed.
End Forest.
