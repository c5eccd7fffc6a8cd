(* The edges recorded by the union-find spanning forests form a forest with the trees of the
   union-find structure. *)
From Coq Require Import Permutation.
From Verif Require Import Base ListUtil UFSpec FRSpec FRProofs SPProofs JATree SUModel SUProofs.
From Verif Require JAForest.
Unset Strict Implicit.
Notation glist := JAForest.glist.

Section Forest.
  Variable n : nat.
  Variable o : unite_option.
  Hypothesis Ho : match o with ORemCAS _ _ => False | _ => True end.
  Variable E : list (nat * nat).       (* the edges that may be recorded *)

  Record fst_inv (g : nat -> option (nat * nat)) (m : mem) : Prop := {
    f_forest : forest' (glist g (seq 0 n));
    f_in : forall x y, In (x, y) (glist g (seq 0 n)) -> x < n /\ y < n /\ In (x, y) E;
    f_conn : forall x y, x < n -> y < n -> (connected (glist g (seq 0 n)) x y <-> same (pa m) x y);
    f_root : forall x, x < n -> pa m x = x -> g x = None }.
  Definition pend (g : nat -> option (nat * nat)) (m : mem) (ts : list (nat * nat * tstate)) : Prop :=
    (forall x, x < n -> ed m x = g x \/ exists t e st, nth_error ts t = Some (e, st) /\ pendst st = Some x) /\
    (forall t e x, nth_error ts t = Some (e, WE x) -> g x = Some e).
  Definition sinv (s : sys) : Prop :=
    good n (fst s) /\ (cas_mode o -> forall a, a < n -> aux (fst s) a = None) /\
    forall t e st, nth_error (snd s) t = Some (e, st) -> fst e < n /\ snd e < n /\ In e E /\ tok n o t e (fst s) st.

  Lemma sys_step_ok s t : sinv s ->
    sinv (sys_step n o s t) /\
    (sys_step n o s t = s \/
     exists e st st', nth_error (snd s) t = Some (e, st) /\ snd (sys_step n o s t) = lset (snd s) t (e, st') /\
       In e E /\ fst e < n /\ snd e < n /\ eff n e (fst s) (fst (sys_step n o s t)) st st').
  Proof.
    intros (G & A & T). unfold sys_step. destruct (nth_error (snd s) t) as [[[x y] st]|] eqn:Et; [|split; [split; auto|now left]].
    destruct (T _ _ _ Et) as (Hx & Hy & Hin & Ts). destruct (tstep n o t (x, y) (fst s) st) as [m' st'] eqn:Es.
    destruct (tstep_ok G A Hx Hy Ho Ts Es) as (G' & A' & T' & R & Ef).
    assert (Hlen : t < length (snd s)) by (apply nth_error_Some; congruence).
    split.
    - split; [exact G'|]. split; [intros C a Ha; simpl; rewrite A' by auto; now apply A|].
      simpl. intros t1 e1 st1 E1. destruct (Nat.eq_dec t1 t) as [->|Hne].
      + rewrite nth_error_lset_same in E1 by auto. injection E1 as <- <-. simpl. auto.
      + rewrite nth_error_lset_other in E1 by auto. destruct e1 as [x1 y1]. destruct (T _ _ _ E1) as (H1 & H2 & H3 & H4). repeat (split; auto).
        simpl in H1, H2. eapply tok_rely; eauto.
    - right. exists (x, y), st, st'. simpl. auto 6.
  Qed.

  Lemma link_forest g m a b x y : good n m -> fst_inv g m -> In (x, y) E -> x < n -> y < n ->
    pa m a = a -> b < a -> a < n -> ends m x y a b -> fst_inv (fset g a (Some (x, y))) (set_pa m a b) /\ g a = None.
  Proof.
    intros G F Hin Hx Hy Er Hb Ha Hac.
    assert (Hg : g a = None) by now apply (f_root F). split; auto. assert (Hbn : b < n) by lia.
    destruct (rooted_ex (good_tree G) Hbn) as (s0 & Hs0 & Rs).
    assert (Hsa : s0 <> a) by (pose proof (rooted_le G Rs Hbn); lia).
    assert (R' : forall x, x < n -> forall r, rooted (pa m) x r -> rooted (pa (set_pa m a b)) x (if r =? a then s0 else r)).
    { apply (@link_rooted n (key n) (pa m) _ a b s0 (good_tree G)); auto; simpl; [now apply kl_lt|now rewrite fset_same|intros; now rewrite fset_other]. }
    destruct (link_ok G Ha Hb Er) as (G' & Hnew & Hold).
    assert (Ra : rooted (pa m) a a) by now apply r_here.
    set (m' := set_pa m a b) in *.
    pose proof (@JAForest.glist_set g a (x, y) n Ha Hg) as HP. set (T := glist g (seq 0 n)) in *.
    set (T' := glist (fset g a (Some (x, y))) (seq 0 n)) in *.
    assert (Hxy : same (pa m') x y) by now apply (@link_joined n m).
    assert (Hdiff : ~ same (pa m) x y).
    { intros S. assert (S' : same (pa m) a b).
      { destruct Hac as [[A B]|[A B]].
        - apply same_trans with x; auto. apply same_trans with y; auto. now apply same_sym.
        - apply same_trans with y; auto. apply same_trans with x; [now apply same_sym|]. now apply same_sym. }
      destruct S' as (r & A & B). apply Hsa. rewrite (rooted_det Rs B). symmetry. exact (rooted_det Ra A). }
    assert (HinT : forall e, In e T' <-> In e T \/ e = (x, y)).
    { intros e. rewrite (Permutation_in' eq_refl HP). rewrite in_app_iff. simpl. intuition auto. }
    split; fold T'.
    - apply forest'_perm with (T ++ [(x, y)]); [now apply Permutation_sym|]. apply forest'_snoc; [apply (f_forest F)|].
      intros Hcn. apply Hdiff. now apply (f_conn F).
    - intros p q Hpq. apply HinT in Hpq as [Hpq|Hpq]; [now apply (f_in F)|]. injection Hpq as -> ->. auto.
    - intros p q Hp Hq. split.
      + intros Hcn. assert (X : p = q \/ (p < n /\ q < n /\ same (pa m') p q)).
        { clear Hp Hq. induction Hcn as [c d Hc|c|c d _ IH|c d e _ IH1 _ IH2]; auto.
          - right. apply HinT in Hc as [Hc|Hc].
            + destruct (f_in F Hc) as (A & B & _). repeat (split; auto). apply Hold; auto. apply (f_conn F); auto. now apply rst_step.
            + injection Hc as -> ->. auto.
          - destruct IH as [->|(A & B & S)]; auto. right. repeat (split; auto). now apply same_sym.
          - destruct IH1 as [->|(A & B & S)]; auto. destruct IH2 as [<-|(A' & B' & S')]; auto.
            right. repeat (split; auto). eapply same_trans; eauto. }
        destruct X as [->|(_ & _ & X)]; auto. eapply same_refl; eauto using good_tree.
      + intros (r & A & B).
        assert (Hsub : forall p q, p < n -> q < n -> same (pa m) p q -> connected T' p q).
        { intros p0 q0 Hp0 Hq0 S. apply (@JAForest.conn_mono T); [intros e He; apply HinT; auto|]. now apply (f_conn F). }
        assert (Cac : connected T' a b).
        { assert (Cxy : connected T' x y) by (apply rst_step; apply HinT; auto).
          destruct Hac as [[A1 B1]|[A1 B1]].
          - eapply JAForest.ctrans; [apply Hsub; [| |exact A1]; auto|]. eapply JAForest.ctrans; [exact Cxy|]. apply Hsub; auto. now apply same_sym.
          - eapply JAForest.ctrans; [apply Hsub; [| |exact A1]; auto|]. eapply JAForest.ctrans; [apply JAForest.csym; exact Cxy|]. apply Hsub; auto. now apply same_sym. }
        destruct (rooted_ex (good_tree G) Hp) as (rp & Hrp & Rp). destruct (rooted_ex (good_tree G) Hq) as (rq & Hrq & Rq).
        pose proof (rooted_det A (R' _ Hp _ Rp)) as E1. pose proof (rooted_det B (R' _ Hq _ Rq)) as E2.
        assert (Cr : forall z w, z < n -> w < n -> rooted (pa m) z w -> connected T' z w).
        { intros z w Hz Hw Rz. apply Hsub; auto. exists w. split; auto. apply r_here. eapply rooted_fix; eauto. }
        assert (Cas : connected T' a s0) by (eapply JAForest.ctrans; [exact Cac|]; auto).
        destruct (Nat.eqb_spec rp a) as [->|N1], (Nat.eqb_spec rq a) as [->|N2].
        * eapply JAForest.ctrans; [apply Cr; [| |exact Rp]; auto|apply JAForest.csym; auto].
        * assert (rq = s0) as -> by congruence. eapply JAForest.ctrans; [apply Cr; [| |exact Rp]; auto|].
          eapply JAForest.ctrans; [exact Cas|apply JAForest.csym; auto].
        * assert (rp = s0) as -> by congruence. eapply JAForest.ctrans; [apply Cr; [| |exact Rp]; auto|].
          eapply JAForest.ctrans; [apply JAForest.csym; exact Cas|apply JAForest.csym; auto].
        * assert (rp = rq) as -> by congruence. eapply JAForest.ctrans; [apply Cr; [| |exact Rp]; auto|apply JAForest.csym; auto].
    - intros z Hz Hr. subst m'. simpl in Hr. destruct (Nat.eq_dec z a) as [->|Hza]; [rewrite fset_same in Hr; lia|].
      rewrite fset_other in Hr by auto. rewrite fset_other by auto. now apply (f_root F).
  Qed.

  Lemma keep_forest g m m' : good n m -> fst_inv g m -> kept n m m' -> fst_inv g m'.
  Proof.
    intros G F [K Hrt]. destruct F as [F1 F2 F3 F4]. split; auto.
    - intros x y Hx Hy. rewrite F3 by auto. split.
      + intros (r & A & B). exists r. split; now apply K.
      + intros (r & A & B). destruct (rooted_ex (good_tree G) Hx) as (rx & _ & Rx). destruct (rooted_ex (good_tree G) Hy) as (ry & _ & Ry).
        pose proof (rooted_det A (K _ Hx _ Rx)). pose proof (rooted_det B (K _ Hy _ Ry)). exists r. split; congruence.
    - intros x Hx Er. apply F4; auto. now apply Hrt.
  Qed.

  Lemma exec_forest sched : forall s g, sinv s -> fst_inv g (fst s) -> pend g (fst s) (snd s) ->
    exists g', sinv (exec n o sched s) /\ fst_inv g' (fst (exec n o sched s)) /\ pend g' (fst (exec n o sched s)) (snd (exec n o sched s)).
  Proof.
    induction sched as [|t sched IH]; intros s g I F P; simpl; [eauto|].
    destruct (sys_step_ok t I) as (I1 & [Es|(e & st & st' & Et & El & Hin & He1 & He2 & Ef)]).
    { rewrite Es. eapply IH; eauto. }
    set (s1 := sys_step n o s t) in *.
    assert (Hlen : t < length (snd s)) by (apply nth_error_Some; congruence).
    destruct P as [P1 P2].
    (* the other calls *)
    assert (Hsame : forall e1 st1, nth_error (snd s1) t = Some (e1, st1) -> e1 = e /\ st1 = st').
    { intros e1 st1. rewrite El, nth_error_lset_same by auto. intros X. now injection X as <- <-. }
    assert (Hoth : forall t1, t1 <> t -> nth_error (snd s1) t1 = nth_error (snd s) t1) by (intros; rewrite El; apply nth_error_lset_other; auto).
    assert (Hme : nth_error (snd s1) t = Some (e, st')) by (rewrite El; now rewrite nth_error_lset_same).
    destruct Ef as [K Eed Q1 Q2|a Ha Em Q|a b Em Er Hb Ha Hac Q].
    - apply (IH s1 g); auto; [eapply keep_forest; eauto; apply I|]. split.
      + intros x Hx. rewrite Eed. destruct (P1 x Hx) as [Ex|(t1 & e1 & st1 & E1 & Ep)]; auto. right.
        destruct (Nat.eq_dec t1 t) as [->|Hne]; [congruence|]. exists t1, e1, st1. split; auto. now rewrite Hoth.
      + intros t1 e1 x E1. destruct (Nat.eq_dec t1 t) as [->|Hne].
        * apply Hsame in E1 as [_ <-]. discriminate.
        * rewrite Hoth in E1 by auto. eapply P2; eauto.
    - apply (IH s1 g); auto.
      { destruct F as [F1 F2 F3 F4]. rewrite Em. split; auto. }
      split.
      + intros x Hx. rewrite Em. cbn [ed set_ed]. destruct (Nat.eq_dec x a) as [->|Hxa].
        * destruct Q as [[-> Q]|(Q1 & Q2 & Q3 & Q4)].
          -- left. rewrite fset_same. symmetry. eapply P2; eauto.
          -- right. exists t, e, st'. auto.
        * rewrite fset_other by auto. destruct (P1 x Hx) as [Ex|(t1 & e1 & st1 & E1 & Ep)]; auto. right.
          destruct (Nat.eq_dec t1 t) as [->|Hne].
          -- exfalso. assert (st1 = st) by congruence. subst st1. destruct Q as [[-> Q]|(Q1 & Q2 & Q3)]; [simpl in Ep; congruence|congruence].
          -- exists t1, e1, st1. split; auto. now rewrite Hoth.
      + intros t1 e1 x E1. destruct (Nat.eq_dec t1 t) as [->|Hne].
        * apply Hsame in E1 as [_ <-]. destruct Q as [[_ Q]|(Q1 & Q2 & Q3 & Q4)]; discriminate.
        * rewrite Hoth in E1 by auto. eapply P2; eauto.
    - destruct e as [x y]. simpl in Hac, He1, He2.
      destruct (@link_forest g (fst s) a b x y) as [F' Hg]; auto; [apply I|]. rewrite <- Em in F'.
      apply (IH s1 (fset g a (Some (x, y)))); auto. split.
      + intros z Hz. rewrite Em. cbn [ed set_pa]. destruct (Nat.eq_dec z a) as [->|Hza].
        * rewrite fset_same. destruct Q as [[-> Q]|(Q1 & Q2 & Q3 & Q4)].
          -- right. exists t, (x, y), (WE a). auto.
          -- left. auto.
        * rewrite fset_other by auto. destruct (P1 z Hz) as [Ez|(t1 & e1 & st1 & E1 & Ep)]; auto. right.
          destruct (Nat.eq_dec t1 t) as [->|Hne].
          -- exfalso. assert (st1 = st) by congruence. subst st1. destruct Q as [[_ Q]|(Q1 & Q2 & Q3 & Q4)]; congruence.
          -- exists t1, e1, st1. split; auto. now rewrite Hoth.
      + intros t1 e1 z E1. destruct (Nat.eq_dec t1 t) as [->|Hne].
        * apply Hsame in E1 as [-> <-]. destruct Q as [[Q _]|(Q1 & Q2 & Q3 & Q4)]; [|discriminate]. injection Q as ->. now rewrite fset_same.
        * rewrite Hoth in E1 by auto. pose proof (P2 _ _ _ E1) as Eg. rewrite fset_other; auto. intros ->. congruence.
  Qed.

  (* a loop *)
  Lemma phase_ok es sched P Ed : (forall x, x < n -> P x <= x) -> (forall x y, In (x, y) es -> x < n /\ y < n /\ In (x, y) E) ->
    fst_inv Ed (mkM P Ed (fun _ => None)) ->
    let s := phase n o es sched P Ed in
    good n (fst s) /\ ~ (exists e, In (e, Fault) (snd s)) /\
    (forall x y, x < n -> y < n -> same P x y -> same (pa (fst s)) x y) /\
    (forall x y, x < n -> y < n -> same (pa (fst s)) x y -> connected E x y) /\
    (all_done s -> fst_inv (ed (fst s)) (fst s) /\ (o = OCompress \/ forall x y, In (x, y) es -> same (pa (fst s)) x y)).
  Proof.
    intros HP Hes F s.
    set (s0 := (mkM P Ed (fun _ => None), map (fun e => (e, start o (fst e) (snd e))) es) : sys).
    assert (G0 : good n (fst s0)) by exact HP.
    assert (Hn0 : forall t e st, nth_error (snd s0) t = Some (e, st) -> nth_error es t = Some e /\ st = start o (fst e) (snd e)).
    { intros t e st. simpl. rewrite nth_error_map. destruct (nth_error es t) as [e'|]; [|discriminate]. simpl. intros X. now injection X as <- <-. }
    assert (I0 : sinv s0).
    { split; auto. split; auto. intros t [x y] st Et. apply Hn0 in Et as [Et ->]. apply nth_error_In in Et.
      destruct (Hes _ _ Et) as (A & B & C). repeat (split; auto). apply start_ok; auto. }
    assert (Pd0 : pend Ed (fst s0) (snd s0)).
    { split; [now left|]. intros t [x y] a Et. apply Hn0 in Et as [Et Es]. apply nth_error_In in Et. destruct (Hes _ _ Et) as (A & B & C).
      exfalso. destruct (@start_ok n o t x y (fst s0)) as [_ X]; auto. simpl in Es. rewrite <- Es in X. discriminate. }
    destruct (exec_forest sched I0 F Pd0) as (g & I & F' & P'). fold s in I, F', P' || change (exec n o sched s0) with s in I, F', P'.
    assert (Hmono : forall sched s1, sinv s1 -> forall x y, x < n -> y < n -> same (pa (fst s1)) x y -> same (pa (fst (exec n o sched s1))) x y).
    { induction sched0 as [|t l IH]; intros s1 I1 x y Hx Hy S; auto. simpl. destruct (sys_step_ok t I1) as (I2 & D). apply IH; auto.
      destruct D as [->|(e & st & st' & _ & _ & _ & _ & _ & Ef)]; auto. destruct Ef as [K _ _ _|a Ha -> _|a b -> Er Hb Ha _ _]; auto.
      - eapply kept_same; eauto.
      - destruct I1 as [G1 _]. destruct (link_ok G1 Ha Hb Er) as (_ & _ & M). now apply M. }
    assert (Hlab : map fst (snd s) = es).
    { assert (X : forall sched s1, map fst (snd (exec n o sched s1)) = map fst (snd s1)).
      { induction sched0 as [|t l IH]; intros s1; auto. simpl. rewrite IH. unfold sys_step.
        destruct (nth_error (snd s1) t) as [[e st]|] eqn:Et; auto. destruct (tstep n o t e (fst s1) st) as [m' st']. simpl.
        apply list_ext_nth_error. intros k. rewrite !nth_error_map. destruct (Nat.eq_dec k t) as [->|Hk].
        - rewrite nth_error_lset_same by (apply nth_error_Some; congruence). now rewrite Et.
        - rewrite nth_error_lset_other; auto. }
      change s with (exec n o sched s0). rewrite X. simpl. rewrite map_map. simpl. apply map_id. }
    destruct I as (G & _ & T). split; auto. split; [|split; [|split]].
    - intros [[x y] Hf]. apply In_nth_error in Hf as [t Hf]. now destruct (T _ _ _ Hf) as (_ & _ & _ & []).
    - intros x y Hx Hy S. apply (Hmono sched s0 I0); auto.
    - intros x y Hx Hy S. apply (@JAForest.conn_mono (glist g (seq 0 n))); [|now apply (f_conn F')]. intros [u v] Huv. now apply (f_in F').
    - intros D. split.
      + destruct P' as [P1 _].
        assert (Heq : forall x, x < n -> ed (fst s) x = g x).
        { intros x Hx. destruct (P1 x Hx) as [Ex|(t & e & st & Et & Ep)]; auto. apply nth_error_In in Et. apply D in Et. subst st. discriminate. }
        destruct F' as [F1 F2 F3 F4].
        assert (Hgl : glist (ed (fst s)) (seq 0 n) = glist g (seq 0 n)).
        { apply JAForest.glist_ext. intros x Hx. apply in_seq in Hx. apply Heq. lia. }
        split; rewrite ?Hgl; auto. intros x Hx Er. rewrite Heq; auto.
      + destruct (match o with OCompress => true | _ => false end) eqn:Eo; [left; destruct o; auto; discriminate|]. right.
        intros x y Hxy. assert (X : In (x, y) (map fst (snd s))) by now rewrite Hlab.
        apply in_map_iff in X as ([e st] & E1 & X). simpl in E1. subst e. pose proof (D _ _ X). subst st.
        apply In_nth_error in X as [t X]. destruct (T _ _ _ X) as (_ & _ & _ & [->|S]); [discriminate|exact S].
  Qed.
End Forest.
