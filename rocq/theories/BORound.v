(* Proofs for C64: one iteration of the Boruvka loop. *)
From Coq Require Import ZArith Permutation.
From Verif Require Import Base ListUtil GBModel UFSpec FRSpec FRProofs BOModel BOLight BOJump.
Local Open Scope nat_scope.

Unset Strict Implicit.
Lemma less_trans a b c : less a b = true -> less b c = true -> less a c = true.
Proof.
  destruct a as [[i|] x], b as [[j|] y], c as [[k|] z]; unfold less; cbn [fst snd id_lt]; rewrite ?Bool.andb_false_r, ?Bool.andb_true_r, ?Bool.orb_false_r;
    rewrite ?Bool.orb_true_iff, ?Bool.andb_true_iff, ?Z.ltb_lt, ?Z.eqb_eq, ?Nat.ltb_lt; lia.
Qed.
Lemma less_irr a : less a a = false.
Proof. destruct a as [[i|] x]; unfold less; cbn [fst snd id_lt]; rewrite Z.ltb_irrefl, ?Nat.ltb_irrefl, Bool.andb_false_r; reflexivity. Qed.
Lemma lxor_l a b : Nat.lxor (Nat.lxor a b) a = b.
Proof. now rewrite (Nat.lxor_comm a b), Nat.lxor_assoc, Nat.lxor_nilpotent, Nat.lxor_0_r. Qed.
Lemma lxor_r a b : Nat.lxor (Nat.lxor a b) b = a.
Proof. now rewrite Nat.lxor_assoc, Nat.lxor_nilpotent, Nat.lxor_0_r. Qed.

Section Select.
  Variable cur : nat -> edge Z.
  Definition key (i : nat) : pair_w := (Some i, wgh (cur i)).
  Lemma do_writes_snoc ws p me : do_writes cur (ws ++ [p]) me = wmin (do_writes cur ws me) (fst p) (key (snd p)).
  Proof. unfold do_writes. now rewrite fold_left_app. Qed.
  Lemma do_writes_min ws me v : let r := do_writes cur ws me v in
    (r = me v \/ exists p, In p ws /\ fst p = v /\ r = key (snd p)) /\ less (me v) r = false /\ forall p, In p ws -> fst p = v -> less (key (snd p)) r = false.
  Proof.
    induction ws as [|q ws IH] using rev_ind; cbv zeta; [split; [now left|split; [apply less_irr|intros p []]]|].
    cbv zeta in IH. destruct IH as (I1 & I2 & I3). rewrite do_writes_snoc. unfold wmin. destruct (less (key (snd q)) (do_writes cur ws me (fst q))) eqn:E.
    - destruct (Nat.eq_dec v (fst q)) as [->|Hne].
      + rewrite fset_same. split; [right; exists q; split; [apply in_or_app; right; now left|auto]|]. split.
        * destruct (less (me (fst q)) (key (snd q))) eqn:E'; auto. rewrite <- I2. symmetry. eapply less_trans; eauto.
        * intros p Hp Hv. apply in_app_iff in Hp as [Hp|[<-|[]]]; [|apply less_irr]. destruct (less (key (snd p)) (key (snd q))) eqn:E'; auto.
          rewrite <- (I3 p Hp Hv). symmetry. eapply less_trans; eauto.
      + rewrite fset_other; auto. split; [destruct I1 as [I1|(p & Hp & Hv & Hr)]; auto; right; exists p; split; auto; apply in_or_app; auto|].
        split; auto. intros p Hp Hv. apply in_app_iff in Hp as [Hp|[<-|[]]]; auto. congruence.
    - split; [destruct I1 as [I1|(p & Hp & Hv & Hr)]; auto; right; exists p; split; auto; apply in_or_app; auto|]. split; auto.
      intros p Hp Hv. apply in_app_iff in Hp as [Hp|[<-|[]]]; auto. now rewrite <- Hv.
  Qed.
  Lemma writes_In ids v i : In (v, i) (writes cur ids) <-> In i ids /\ (src (cur i) = v \/ dst (cur i) = v).
  Proof.
    unfold writes. rewrite in_flat_map. split.
    - intros (j & Hj & [E|[E|[]]]); injection E as <- <-; auto.
    - intros [Hi [E|E]]; exists i; (split; auto); simpl; rewrite E; auto.
  Qed.
End Select.

Section Batch.
  Variable top : Z.
  Variable ed : nat -> edge Z.
  Variable m N : nat.
  Variable D T0 : list (edge Z).
  Hypothesis Htop : forall i, i < m -> (wgh (ed i) <= top)%Z.
  Hypothesis HD : forall e, In e D -> connected (ends T0) (src e) (dst e).

  Record BI (s : bstate) (rt : nat -> nat) : Prop := {
    bi_nd : NoDup (b_vs s);
    bi_N : forall v, In v (b_vs s) -> v < N;
    bi_self : forall v, In v (b_vs s) -> b_P s v = v;
    bi_rt : forall x, tree_root (b_P s) x (rt x);
    bi_conn : forall x y, rt x = rt y <-> connected (ends (T0 ++ map ed (b_out s))) x y;
    bi_ids : NoDup (b_ids s);
    bi_lt : forall i, In i (b_ids s) -> i < m;
    bi_cur : forall i, In i (b_ids s) -> b_cur s i = (rt (src (ed i)), rt (dst (ed i)), wgh (ed i));
    bi_cross : forall i, In i (b_ids s) -> rt (src (ed i)) <> rt (dst (ed i));
    bi_act : forall i, In i (b_ids s) -> In (rt (src (ed i))) (b_vs s) /\ In (rt (dst (ed i))) (b_vs s);
    bi_dead : forall i, i < m -> ~ In i (b_ids s) -> rt (src (ed i)) = rt (dst (ed i));
    bi_roots : forall r, r < N -> b_P s r = r -> In r (b_vs s) \/ b_ex s r = true;
    bi_ex : forall r, b_ex s r = true -> b_P s r = r /\ ~ In r (b_vs s);
    bi_big : forall x, N <= x -> b_P s x = x;
    bi_ndo : NoDup (b_out s);
    bi_olt : forall i, In i (b_out s) -> i < m;
    bi_light : forall i, In i (b_out s) -> ~ connected (ends (D ++ smaller ed m i)) (src (ed i)) (dst (ed i)) }.

  Section Round.
    Variable s : bstate.
    Variable rt : nat -> nat.
    Hypothesis I : BI s rt.
    Variable ws : list (nat * nat).
    Hypothesis Hws : Permutation ws (writes (b_cur s) (b_ids s)).
    Let me := do_writes (b_cur s) ws (init top (b_vs s) (b_me s)).
    Notation P1 := (hooked (b_cur s) me (b_vs s) (b_P s)).
    Notation kind_of := (mark (b_cur s) me).
    (* edge i is at the component v *)
    Definition at_comp (i v : nat) : Prop := rt (src (ed i)) = v \/ rt (dst (ed i)) = v.
    Lemma rt_idem x : rt (rt x) = rt x.
    Proof. eapply tree_root_det; [apply (bi_rt I)|]. apply tree_root_self, (bi_rt I). Qed.
    Lemma rt_self v : In v (b_vs s) -> rt v = v.
    Proof. intros H. eapply tree_root_det; [apply (bi_rt I)|]. now apply tree_root_self, (bi_self I). Qed.
    Lemma wgh_cur i : In i (b_ids s) -> wgh (b_cur s i) = wgh (ed i).
    Proof. intros H. now rewrite (bi_cur I H). Qed.
    Lemma src_cur i : In i (b_ids s) -> src (b_cur s i) = rt (src (ed i)).
    Proof. intros H. now rewrite (bi_cur I H). Qed.
    Lemma dst_cur i : In i (b_ids s) -> dst (b_cur s i) = rt (dst (ed i)).
    Proof. intros H. now rewrite (bi_cur I H). Qed.
    Lemma cur_at i v : In i (b_ids s) -> (src (b_cur s i) = v \/ dst (b_cur s i) = v) <-> at_comp i v.
    Proof. intros H. rewrite (bi_cur I H). reflexivity. Qed.
    Lemma klt_less i j : In i (b_ids s) -> In j (b_ids s) -> less (key (b_cur s) i) (key (b_cur s) j) = true <-> klt ed i j.
    Proof. intros Hi Hj. rewrite <- kltb_spec. unfold less, key, kltb. cbn [fst snd id_lt]. now rewrite !wgh_cur. Qed.
    (* the selected edge *)
    Lemma me_some v i : In v (b_vs s) -> fst (me v) = Some i -> In i (b_ids s) /\ at_comp i v /\ (forall j, In j (b_ids s) -> at_comp j v -> ~ klt ed j i).
    Proof.
      intros Hv E. destruct (@do_writes_min (b_cur s) ws (init top (b_vs s) (b_me s)) v) as (M1 & M2 & M3). fold me in M1, M2, M3.
      unfold init in M1. apply memb_In in Hv. rewrite Hv in M1. destruct M1 as [M1|([w j] & Hp & Hw & M1)]; [rewrite M1 in E; discriminate|].
      rewrite M1 in E, M3. simpl in *. injection E as ->. subst w. apply (Permutation_in _ Hws), writes_In in Hp as [Hi Hp]. apply (@cur_at i v Hi) in Hp.
      split; auto. split; auto. intros j Hj Ha Hk. apply (@klt_less j i Hj Hi) in Hk.
      assert (X : less (key (b_cur s) j) (key (b_cur s) i) = false); [|congruence]. apply (M3 (v, j)); auto. apply (Permutation_in _ (Permutation_sym Hws)), writes_In. split; auto. now apply cur_at.
    Qed.
    Lemma me_none v : In v (b_vs s) -> fst (me v) = None -> forall j, In j (b_ids s) -> ~ at_comp j v.
    Proof.
      intros Hv E j Hj Ha. destruct (@do_writes_min (b_cur s) ws (init top (b_vs s) (b_me s)) v) as (M1 & M2 & M3). fold me in M1, M2, M3.
      unfold init in M1. apply memb_In in Hv. rewrite Hv in M1. destruct M1 as [M1|([w i] & Hp & Hw & M1)]; [|rewrite M1 in E; discriminate].
      assert (X : less (key (b_cur s) j) (me v) = false). { apply (M3 (v, j)); auto. apply (Permutation_in _ (Permutation_sym Hws)), writes_In. split; auto. now apply cur_at. }
      rewrite M1 in X. unfold less, key in X. cbn [fst snd id_lt] in X. rewrite wgh_cur in X; auto. pose proof (Htop (bi_lt I Hj)) as Ht.
      apply Bool.orb_false_iff in X as [X1 X2]. rewrite Bool.andb_true_r in X2. apply Z.ltb_ge in X1. apply Z.eqb_neq in X2. lia.
    Qed.
    Lemma hook_inv v u i : In v (b_vs s) -> kind_of v = KHook u i -> fst (me v) = Some i /\ In i (b_ids s) /\ In u (b_vs s) /\ u <> v /\ at_comp i v /\ at_comp i u /\
      (forall x, at_comp i x -> x = u \/ x = v).
    Proof.
      intros Hv E. unfold mark in E. destruct (fst (me v)) as [i'|] eqn:Em; [|discriminate].
      destruct (me_some Hv Em) as (Hi & Ha & _). rewrite (src_cur Hi), (dst_cur Hi) in E.
      destruct (bi_act I Hi) as [A1 A2]. pose proof (bi_cross I Hi) as Hc.
      destruct (_ && _)%bool; [discriminate|]. injection E as Eu ->. split; auto. split; auto. unfold at_comp in *.
      destruct Ha as [Ha|Ha]; rewrite <- Ha, ?lxor_l, ?lxor_r in Eu; subst u; (split; [auto|]); (split; [congruence|]); (split; [auto|]); (split; [auto|]); intros x [<-|<-]; auto.
    Qed.
    Lemma root_inv v : In v (b_vs s) -> kind_of v = KRoot -> exists u i, fst (me v) = Some i /\ fst (me u) = Some i /\ v < u /\ In u (b_vs s) /\ In i (b_ids s) /\ at_comp i v /\ at_comp i u.
    Proof.
      intros Hv E. unfold mark in E. destruct (fst (me v)) as [i|] eqn:Em; [|discriminate].
      destruct (me_some Hv Em) as (Hi & Ha & _). rewrite (src_cur Hi), (dst_cur Hi) in E.
      destruct (bi_act I Hi) as [A1 A2]. set (u := Nat.lxor _ v) in *.
      assert (Hu : (v = rt (src (ed i)) /\ u = rt (dst (ed i))) \/ (v = rt (dst (ed i)) /\ u = rt (src (ed i)))).
      { unfold u. destruct Ha as [Ha|Ha]; rewrite <- Ha, ?lxor_l, ?lxor_r; auto. }
      destruct (v <? u) eqn:E1; [|discriminate]. destruct (fst (me u)) as [j|] eqn:Eu; [|discriminate]. destruct (i =? j) eqn:E2; [|discriminate].
      apply Nat.eqb_eq in E2. subst j. apply Nat.ltb_lt in E1. exists u, i. unfold at_comp. repeat (split; auto); destruct Hu as [[H1 H2]|[H1 H2]]; rewrite ?H1, ?H2; auto.
    Qed.
    Lemma partner v i : In v (b_vs s) -> fst (me v) = Some i -> exists u, In u (b_vs s) /\ u <> v /\ at_comp i u /\
      kind_of v = if ((v <? u) && match fst (me u) with Some j => i =? j | None => false end)%bool then KRoot else KHook u i.
    Proof.
      intros Hv Em. destruct (me_some Hv Em) as (Hi & Ha & _). unfold mark. rewrite Em, (src_cur Hi), (dst_cur Hi).
      destruct (bi_act I Hi) as [A1 A2]. pose proof (bi_cross I Hi) as Hc. set (u := Nat.lxor _ v). exists u. unfold at_comp in *.
      assert (Hu : (v = rt (src (ed i)) /\ u = rt (dst (ed i))) \/ (v = rt (dst (ed i)) /\ u = rt (src (ed i)))).
      { unfold u. destruct Ha as [Ha|Ha]; rewrite <- Ha, ?lxor_l, ?lxor_r; auto. }
      destruct Hu as [[H1 H2]|[H1 H2]]; rewrite H2; repeat split; auto; congruence.
    Qed.
    Lemma two_ends i u v x : In i (b_ids s) -> u <> v -> at_comp i u -> at_comp i v -> at_comp i x -> x = u \/ x = v.
    Proof. intros _ Hne [<-|<-] [<-|<-] [<-|<-]; auto; congruence. Qed.
    (* two vertices that selected the same edge: the lower one is the root *)
    Lemma mutual u v i : In u (b_vs s) -> In v (b_vs s) -> u < v -> fst (me u) = Some i -> fst (me v) = Some i -> kind_of u = KRoot /\ kind_of v = KHook u i.
    Proof.
      intros Hu Hv Hl Eu Ev. destruct (me_some Hu Eu) as (Hi & Au & _). destruct (me_some Hv Ev) as (_ & Av & _).
      destruct (partner Hu Eu) as (u' & B1 & B2 & B3 & B4). destruct (partner Hv Ev) as (v' & C1 & C2 & C3 & C4).
      assert (u' = v) by (destruct (two_ends Hi B2 B3 Au Av); [congruence|lia]). assert (v' = u) by (destruct (two_ends Hi C2 C3 Av Au); [congruence|lia]). subst u' v'.
      rewrite B4, C4, Ev. apply Nat.ltb_lt in Hl as Hl'. rewrite Hl', Nat.eqb_refl. split; auto.
      replace (v <? u) with false; auto. symmetry. apply Nat.ltb_ge. lia.
    Qed.
    Lemma P1_hook v u i : In v (b_vs s) -> kind_of v = KHook u i -> P1 v = u.
    Proof. intros Hv E. unfold hooked. apply memb_In in Hv. now rewrite Hv, E. Qed.
    Lemma P1_root v : In v (b_vs s) -> kind_of v = KRoot \/ kind_of v = KExhausted -> P1 v = v.
    Proof. intros Hv E. unfold hooked. pose proof (bi_self I Hv) as Hs. apply memb_In in Hv. rewrite Hv. destruct E as [-> | ->]; auto. Qed.
    Lemma P1_out v : ~ In v (b_vs s) -> P1 v = b_P s v.
    Proof. intros Hv. unfold hooked. apply memb_not in Hv. now rewrite Hv. Qed.
    Lemma exh_none v : kind_of v = KExhausted -> fst (me v) = None.
    Proof. unfold mark. destruct (fst (me v)); auto. destruct (_ && _)%bool; discriminate. Qed.

    Definition rank (v : nat) : nat := match fst (me v) with Some i => length (filter (fun j => kltb ed j i) (seq 0 m)) | None => 0 end.
    Lemma rank_le v : rank v <= m.
    Proof. unfold rank. destruct (fst (me v)); [|lia]. rewrite <- (seq_length m 0) at 2. apply filter_len_le. Qed.
    Lemma rank_lt u v i j : In j (b_ids s) -> fst (me u) = Some j -> fst (me v) = Some i -> klt ed j i -> rank u < rank v.
    Proof.
      intros Hj Eu Ev Hk. unfold rank. rewrite Eu, Ev.
      assert (Hjm : In j (seq 0 m)) by (apply in_seq; pose proof (bi_lt I Hj); lia).
      assert (X : forall l, In j l -> length (filter (fun k => kltb ed k j) l) < length (filter (fun k => kltb ed k i) l)).
      { assert (Y : forall l, length (filter (fun k => kltb ed k j) l) <= length (filter (fun k => kltb ed k i) l)).
        { induction l as [|k l IH]; simpl; auto. destruct (kltb ed k j) eqn:E1.
          - apply kltb_spec in E1. pose proof (klt_trans E1 Hk) as E2. apply kltb_spec in E2. rewrite E2. simpl. lia.
          - destruct (kltb ed k i); simpl; lia. }
        induction l as [|k l IH]; intros Hin; [destruct Hin|]. simpl. destruct Hin as [->|Hin].
        - assert (E1 : kltb ed j j = false) by (destruct (kltb ed j j) eqn:E; auto; apply kltb_spec, klt_irr in E; contradiction). apply kltb_spec in Hk. rewrite E1, Hk. simpl. specialize (Y l). lia.
        - specialize (IH Hin). destruct (kltb ed k j) eqn:E1.
          + apply kltb_spec in E1. pose proof (klt_trans E1 Hk) as E2. apply kltb_spec in E2. rewrite E2. simpl. lia.
          + destruct (kltb ed k i); simpl; lia. }
      auto.
    Qed.
    (* hooking goes to a root or to smaller edges *)
    Lemma hook_down v u i : In v (b_vs s) -> kind_of v = KHook u i -> P1 u = u \/ rank u < rank v.
    Proof.
      intros Hv E. destruct (hook_inv Hv E) as (Ev & Hi & Hu & Hne & Av & Au & _). destruct (fst (me u)) as [j|] eqn:Eu; [|exfalso; exact (me_none Hu Eu Hi Au)].
      destruct (me_some Hu Eu) as (Hj & _ & Hmin). destruct (klt_total ed j i) as [H|[H|H]].
      - right. eapply rank_lt; eauto.
      - subst j. left. apply P1_root; auto. left. destruct (Nat.lt_ge_cases u v) as [Hl|Hl]; [apply (mutual Hu Hv Hl Eu Ev)|].
        exfalso. assert (Hl' : v < u) by lia. destruct (mutual Hv Hu Hl' Ev Eu) as [X _]. congruence.
      - exfalso. exact (Hmin i Hi Au H).
    Qed.
    Lemma P1_fix v : In v (b_vs s) -> P1 (Nat.iter (S (rank v)) P1 v) = Nat.iter (S (rank v)) P1 v.
    Proof.
      remember (rank v) as k eqn:Ek. revert v Ek. induction k as [k IH] using lt_wf_ind. intros v Ek Hv. destruct (kind_of v) as [| |u i] eqn:E.
      1, 2: rewrite iter_fix; apply P1_root; auto.
      rewrite iter_S, (P1_hook Hv E). destruct (hook_inv Hv E) as (_ & _ & Hu & _). destruct (hook_down Hv E) as [H|H]; [rewrite iter_fix; auto|].
      replace k with (k - S (rank u) + S (rank u)) by lia. rewrite iter_add. rewrite iter_fix; apply (IH (rank u)); auto; lia.
    Qed.
    Definition rt1 (x : nat) : nat := Nat.iter (S m) P1 (rt x).
    Lemma rt1_vs v : In v (b_vs s) -> tree_root P1 v (Nat.iter (S m) P1 v).
    Proof.
      intros Hv. split; [|eauto]. pose proof (rank_le v). replace (S m) with (m - rank v + S (rank v)) by lia. rewrite iter_add.
      pose proof (P1_fix Hv) as F. now rewrite iter_fix.
    Qed.
    Lemma rt1_root x : tree_root P1 x (rt1 x).
    Proof.
      assert (X : tree_root P1 (rt x) (rt1 x)).
      { unfold rt1. destruct (in_dec Nat.eq_dec (rt x) (b_vs s)) as [H|H]; [now apply rt1_vs|]. assert (P1 (rt x) = rt x) by (rewrite P1_out; auto; apply (bi_rt I)).
        rewrite iter_fix; auto. now apply tree_root_self. }
      assert (Y : exists k, Nat.iter k P1 x = rt x).
      { destruct (bi_rt I x) as [Hr (k & E)]. clear X. set (r := rt x) in *. clearbody r. revert x E. induction k as [|k IH]; intros x E; [now exists 0|].
        destruct (Nat.eq_dec (b_P s x) x) as [Hx|Hx]; [rewrite iter_fix in E; auto; now exists 0|].
        rewrite iter_S in E. destruct (IH _ E) as (k' & E'). exists (S k'). rewrite iter_S, P1_out; auto. intros Hv. now apply (bi_self I) in Hv. }
      destruct X as [X1 (k & X2)]. destruct Y as (k' & Y). split; auto. exists (k + k'). now rewrite iter_add, Y.
    Qed.
    Lemma rt1_rt x : rt1 (rt x) = rt1 x.
    Proof. unfold rt1. now rewrite rt_idem. Qed.
    Lemma rt1_P1 x : rt1 (P1 x) = rt1 x.
    Proof. eapply tree_root_det; [apply rt1_root|]. apply tree_root_step, rt1_root. Qed.
    Lemma rt1_fixed x : P1 x = x -> rt1 x = x.
    Proof. intros H. eapply tree_root_det; [apply rt1_root|]. now apply tree_root_self. Qed.
    Lemma rt1_same x y : rt x = rt y -> rt1 x = rt1 y.
    Proof. unfold rt1. congruence. Qed.

    Notation new := (new_edges (b_cur s) me (b_vs s)).
    Lemma new_In i : In i new <-> exists v u, In v (b_vs s) /\ kind_of v = KHook u i.
    Proof.
      unfold new_edges. rewrite in_flat_map. split.
      - intros (v & Hv & Hi). destruct (kind_of v) as [| |u j] eqn:E; [contradiction|contradiction|]. destruct Hi as [<-|[]]. eauto.
      - intros (v & u & Hv & E). exists v. rewrite E. split; auto. now left.
    Qed.
    Lemma new_ids i : In i new -> In i (b_ids s).
    Proof. intros H. apply new_In in H as (v & u & Hv & E). apply (hook_inv Hv E). Qed.
    Lemma new_nodup : NoDup new.
    Proof.
      unfold new_edges. enough (X : forall l, NoDup l -> (forall v, In v l -> In v (b_vs s)) -> NoDup (flat_map (fun v => match kind_of v with KHook _ i => [i] | _ => [] end) l)) by (apply X; auto; apply I).
      intros l HN Hin. induction l as [|v l IH]; simpl; [constructor|]. inversion_clear HN. assert (IH' : NoDup (flat_map (fun v => match kind_of v with KHook _ i => [i] | _ => [] end) l)) by (apply IH; auto; intros w Hw; apply Hin; now right).
      destruct (kind_of v) as [| |u i] eqn:E; auto. simpl. constructor; auto. intros Hi. apply in_flat_map in Hi as (w & Hw & Hi).
      destruct (kind_of w) as [| |u' i'] eqn:E'; [contradiction|contradiction|]. destruct Hi as [->|[]].
      assert (Hv : In v (b_vs s)) by (apply Hin; now left). assert (Hw' : In w (b_vs s)) by (apply Hin; now right).
      destruct (hook_inv Hv E) as (Ev & _). destruct (hook_inv Hw' E') as (Ew & _).
      destruct (Nat.lt_trichotomy v w) as [Hl|[Hl|Hl]]; [|subst; contradiction|].
      - destruct (mutual Hv Hw' Hl Ev Ew). congruence.
      - destruct (mutual Hw' Hv Hl Ew Ev). congruence.
    Qed.
    Lemma new_light i : In i new -> ~ connected (ends (D ++ smaller ed m i)) (src (ed i)) (dst (ed i)).
    Proof.
      intros Hn C. apply new_In in Hn as (v & u & Hv & E). destruct (hook_inv Hv E) as (Ev & Hi & Hu & Hne & Av & Au & _).
      destruct (me_some Hv Ev) as (_ & _ & Hmin).
      assert (X : rt (src (ed i)) = v <-> rt (dst (ed i)) = v).
      { apply (@conn_inside (D ++ smaller ed m i) (fun x => rt x = v)); auto. intros e He. apply in_app_iff in He as [He|He].
        - assert (Y : rt (src e) = rt (dst e)) by (apply (bi_conn I); eapply conn_ends_incl; [|apply HD; auto]; apply incl_appl, incl_refl). rewrite Y. reflexivity.
        - apply smaller_In in He as (j & Hj & Hk & ->). destruct (in_dec Nat.eq_dec j (b_ids s)) as [Hji|Hji]; [|rewrite (bi_dead I Hj Hji); reflexivity].
          split; intros Hr; exfalso; apply (Hmin j Hji); auto; unfold at_comp; auto. }
      pose proof (bi_cross I Hi) as Hc. destruct Av as [A|A]; [apply X in A as A'|apply X in A as A']; congruence.
    Qed.
    (* connectivity by the old and the new edges *)
    Lemma conn1 x y : rt1 x = rt1 y <-> connected (ends (T0 ++ map ed (b_out s ++ new))) x y.
    Proof.
      assert (Hold : forall x y, rt x = rt y -> connected (ends (T0 ++ map ed (b_out s ++ new))) x y).
      { intros a b H. apply (bi_conn I) in H. eapply conn_ends_incl; [|exact H]. rewrite map_app. intros e. rewrite !in_app_iff. tauto. }
      assert (H1 : forall v, connected (ends (T0 ++ map ed (b_out s ++ new))) v (P1 v)).
      { intros v. destruct (in_dec Nat.eq_dec v (b_vs s)) as [Hv|Hv].
        - destruct (kind_of v) as [| |u i] eqn:E; [rewrite P1_root; auto; apply rst_refl|rewrite P1_root; auto; apply rst_refl|]. rewrite (P1_hook Hv E).
          destruct (hook_inv Hv E) as (_ & Hi & Hu & Hne & Av & Au & _).
          assert (Hc : connected (ends (T0 ++ map ed (b_out s ++ new))) (src (ed i)) (dst (ed i))).
          { apply conn_edge, in_or_app. right. apply in_map, in_or_app. right. apply new_In. eauto. }
          assert (Hv' : rt v = v) by now apply rt_self. assert (Hu' : rt u = u) by now apply rt_self.
          destruct Av as [Av|Av], Au as [Au|Au]; try congruence.
          + eapply rst_trans; [apply Hold; rewrite Hv'; symmetry; exact Av|]. eapply rst_trans; [exact Hc|]. apply Hold. congruence.
          + eapply rst_trans; [apply Hold; rewrite Hv'; symmetry; exact Av|]. eapply rst_trans; [apply rst_sym; exact Hc|]. apply Hold. congruence.
        - rewrite P1_out; auto. apply Hold. eapply tree_root_det; [|apply (bi_rt I)]. apply tree_root_step, (bi_rt I). }
      assert (H2 : forall k v, connected (ends (T0 ++ map ed (b_out s ++ new))) v (Nat.iter k P1 v)).
      { induction k as [|k IH]; intros v; [apply rst_refl|]. simpl. eapply rst_trans; [apply IH|apply H1]. }
      assert (H3 : forall v, connected (ends (T0 ++ map ed (b_out s ++ new))) v (rt1 v)).
      { intros v. destruct (rt1_root v) as [_ (k & <-)]. apply H2. }
      split.
      - intros E. eapply rst_trans; [apply H3|]. rewrite E. apply rst_sym, H3.
      - intros C. induction C as [a b He| |a b _ IH|a c b _ IH1 _ IH2]; [|auto|auto|congruence]. apply ends_In in He as (e & He & <- & <-).
        rewrite map_app, app_assoc in He. apply in_app_iff in He as [He|He]; [apply rt1_same, (bi_conn I), conn_edge; auto|].
        apply in_map_iff in He as (i & <- & Hi). apply new_In in Hi as (v & u & Hv & E). destruct (hook_inv Hv E) as (_ & Hi & Hu & Hne & Av & Au & _).
        assert (X : rt1 u = rt1 v) by (rewrite <- (P1_hook Hv E); apply rt1_P1).
        rewrite <- (rt1_rt (src (ed i))), <- (rt1_rt (dst (ed i))). destruct Av as [Av|Av], Au as [Au|Au]; congruence.
    Qed.
    (* a component with an edge ends in a root that stays active *)
    Lemma stays v k : In v (b_vs s) -> kind_of v <> KExhausted -> In (Nat.iter k P1 v) (b_vs s) /\ kind_of (Nat.iter k P1 v) <> KExhausted.
    Proof.
      intros Hv Hk. induction k as [|k [IH1 IH2]]; [auto|]. simpl. set (w := Nat.iter k P1 v) in *. destruct (kind_of w) as [| |u i] eqn:E; [congruence|rewrite P1_root; auto; split; auto; congruence|].
      rewrite (P1_hook IH1 E). destruct (hook_inv IH1 E) as (_ & Hi & Hu & _ & _ & Au & _). split; auto. intros Hx. apply exh_none in Hx. eapply me_none; eauto.
    Qed.
    Lemma live_root i x : In i (b_ids s) -> at_comp i x -> In (rt1 x) (b_vs s) /\ kind_of (rt1 x) = KRoot.
    Proof.
      intros Hi Hx. assert (Hv : In x (b_vs s)) by (destruct (bi_act I Hi); destruct Hx as [<-|<-]; auto).
      unfold rt1. rewrite (rt_self Hv). destruct (@stays x (S m) Hv) as [H1 H2]; [intros E; apply exh_none in E; eapply me_none; eauto|].
      split; auto. set (r := Nat.iter (S m) P1 x) in *. destruct (kind_of r) as [| |u j] eqn:E; auto; [congruence|].
      exfalso. destruct (hook_inv H1 E) as (_ & _ & _ & Hne & _). apply Hne. rewrite <- (P1_hook H1 E). apply (rt1_vs Hv).
    Qed.

    Lemma round_smaller : b_ids s <> [] -> length (filter (is_root (b_cur s) me) (b_vs s)) < length (b_vs s).
    Proof.
      intros Hne. assert (Hi : exists i, In i (b_ids s)) by (destruct (b_ids s) as [|i l]; [congruence|exists i; now left]). destruct Hi as (i & Hi).
      assert (X : exists v, In v (b_vs s) /\ is_root (b_cur s) me v = false).
      { set (v := rt (src (ed i))). assert (Hv : In v (b_vs s)) by apply (bi_act I Hi). destruct (kind_of v) as [| |u j] eqn:E; [exists v; unfold is_root; now rewrite E| |exists v; unfold is_root; now rewrite E].
        destruct (root_inv Hv E) as (u & j & Ev & Eu & Hl & Hu & _). exists u. split; auto. unfold is_root. destruct (mutual Hv Hu Hl Ev Eu) as [_ ->]. auto. }
      destruct X as (v & Hv & E). enough (Y : forall l0, In v l0 -> length (filter (is_root (b_cur s) me) l0) < length l0) by auto. induction l0 as [|w l0 IH]; intros [].
      - subst. simpl. rewrite E. pose proof (filter_len_le (is_root (b_cur s) me) l0). lia.
      - simpl. specialize (IH H). destruct (is_root (b_cur s) me w); simpl; lia.
    Qed.
    Variable P' : nat -> nat.
    Hypothesis Hj : jump (b_vs s) P1 P'.
    Lemma P'_eq x : P' x = if memb x (b_vs s) then rt1 x else P1 x.
    Proof. now apply jump_ok with (rt := rt1) (x := x) in Hj; [|apply rt1_root]. Qed.
    Lemma P'_rt x : tree_root P' x (rt1 x).
    Proof.
      assert (F : P' (rt1 x) = rt1 x). { rewrite P'_eq. pose proof (proj1 (rt1_root x)) as F. destruct (memb _ _); auto. now apply rt1_fixed. }
      split; auto. destruct (rt1_root x) as [_ (k & E)]. set (r := rt1 x) in *. assert (Er : rt1 x = r) by auto. clearbody r.
      revert x E Er. induction k as [|k IH]; intros x E Er; [now exists 0|]. rewrite iter_S in E.
      destruct (memb x (b_vs s)) eqn:Em; [exists 1; simpl; rewrite P'_eq, Em; auto|]. destruct (IH (P1 x) E) as (k' & E'); [now rewrite rt1_P1|].
      exists (S k'). rewrite iter_S. now rewrite P'_eq, Em.
    Qed.
    Let cur' := relabel P' (b_ids s) (b_cur s).
    Lemma cur'_eq i : In i (b_ids s) -> cur' i = (rt1 (src (ed i)), rt1 (dst (ed i)), wgh (ed i)).
    Proof.
      intros Hi. unfold cur', relabel. apply memb_In in Hi as Hi'. rewrite Hi', (src_cur Hi), (dst_cur Hi), (wgh_cur Hi).
      rewrite !P'_eq. destruct (bi_act I Hi) as [A1 A2]. apply memb_In in A1, A2. now rewrite A1, A2, !rt1_rt.
    Qed.
    Theorem round_inv : BI {| b_vs := filter (is_root (b_cur s) me) (b_vs s); b_me := me; b_P := P';
                  b_ex := exhaust (b_cur s) me (b_vs s) (b_ex s); b_cur := cur';
                  b_ids := filter (crossing cur') (b_ids s); b_out := b_out s ++ new |} rt1.
    Proof.
      assert (Hroot : forall v, In v (filter (is_root (b_cur s) me) (b_vs s)) <-> In v (b_vs s) /\ kind_of v = KRoot).
      { intros v. rewrite filter_In. unfold is_root. destruct (kind_of v); intuition congruence. }
      assert (Hids : forall i, In i (filter (crossing cur') (b_ids s)) <-> In i (b_ids s) /\ rt1 (src (ed i)) <> rt1 (dst (ed i))).
      { intros i. rewrite filter_In. split; intros [Hi Hc]; split; auto; unfold crossing in *; rewrite (cur'_eq Hi) in *; cbn [src dst fst snd] in *.
        - apply Bool.negb_true_iff, Nat.eqb_neq in Hc. auto.
        - now apply Bool.negb_true_iff, Nat.eqb_neq. }
      constructor; cbn [b_vs b_me b_P b_ex b_cur b_ids b_out].
      - apply NoDup_filter, I.
      - intros v Hv. apply Hroot in Hv as [Hv _]. now apply (bi_N I).
      - intros v Hv. apply Hroot in Hv as [Hv E]. rewrite P'_eq. apply memb_In in Hv as Hm. rewrite Hm. apply rt1_fixed, P1_root; auto.
      - apply P'_rt.
      - apply conn1.
      - apply NoDup_filter, I.
      - intros i Hi. apply Hids in Hi as [Hi _]. now apply (bi_lt I).
      - intros i Hi. apply Hids in Hi as [Hi _]. now apply cur'_eq.
      - intros i Hi. now apply Hids in Hi.
      - intros i Hi. apply Hids in Hi as [Hi _]. split; apply Hroot; rewrite <- rt1_rt; apply (live_root Hi); unfold at_comp; auto.
      - intros i Hi Hn. destruct (in_dec Nat.eq_dec i (b_ids s)) as [Hin|Hin]; [|now apply rt1_same, (bi_dead I)].
        destruct (Nat.eq_dec (rt1 (src (ed i))) (rt1 (dst (ed i)))); auto. exfalso. apply Hn, Hids. auto.
      - intros r Hr E. rewrite Hroot. unfold exhaust. rewrite P'_eq in E. destruct (memb r (b_vs s)) eqn:Em.
        + apply memb_In in Em. destruct (kind_of r) as [| |u i] eqn:Ek; auto. exfalso. destruct (hook_inv Em Ek) as (_ & _ & _ & Hne & _). apply Hne. rewrite <- (P1_hook Em Ek).
          rewrite <- E. apply rt1_root.
        + apply memb_not in Em. rewrite P1_out in E; auto. right. destruct (bi_roots I Hr E); tauto.
      - intros r Hr. rewrite Hroot. unfold exhaust in Hr. rewrite P'_eq. destruct (memb r (b_vs s)) eqn:Em.
        + apply memb_In in Em as Hv. destruct (kind_of r) as [| |u i] eqn:Ek; [|now apply (bi_ex I) in Hr as [_ Hr]|now apply (bi_ex I) in Hr as [_ Hr]].
          split; [apply rt1_fixed, P1_root; auto|intuition congruence].
        + apply memb_not in Em. rewrite P1_out; auto. apply (bi_ex I) in Hr as [Hr _]. split; auto. tauto.
      - intros x Hx. assert (~ In x (b_vs s)) by (intros Hv; apply (bi_N I) in Hv; lia). rewrite P'_eq. apply memb_not in H as Hm. rewrite Hm, P1_out; auto. now apply (bi_big I).
      - apply NoDup_app_iff. split; [apply I|]. split; [apply new_nodup|]. intros i Hi Hn. apply new_ids in Hn. apply (bi_cross I Hn). apply (bi_conn I), conn_edge, in_or_app. right. now apply in_map.
      - intros i Hi. apply in_app_iff in Hi as [Hi|Hi]; [now apply (bi_olt I)|]. apply (bi_lt I). now apply new_ids.
      - intros i Hi. apply in_app_iff in Hi as [Hi|Hi]; [now apply (bi_light I)|now apply new_light].
    Qed.
  End Round.

  Lemma bround_inv s s' rt : BI s rt -> bround top s s' -> exists rt', BI s' rt'.
  Proof. intros I H. inversion H; subst. eexists. eapply round_inv; eauto. Qed.
  Lemma bloop_inv s s' rt : bloop top s s' -> BI s rt -> exists rt', BI s' rt' /\ bgoes s' = false.
  Proof.
    intros H. revert rt. induction H as [s E|s s1 s' E Hr Hl IH]; intros rt I; [eauto|]. destruct (bround_inv I Hr) as (rt1 & I1). eauto.
  Qed.
  Lemma bloop_runs k : forall s rt, length (b_vs s) <= k -> BI s rt -> exists s', bloop top s s'.
  Proof.
    induction k as [|k IH]; intros s rt Hk I.
    - exists s. apply bl_done. unfold bgoes. replace (length (b_vs s)) with 0 by lia. reflexivity.
    - destruct (bgoes s) eqn:E; [|exists s; now apply bl_done].
      assert (Hne : b_ids s <> []) by (intros Hn; unfold bgoes in E; rewrite Hn, Bool.andb_comm in E; discriminate).
      set (ws := writes (b_cur s) (b_ids s)). assert (Hp : Permutation ws (writes (b_cur s) (b_ids s))) by apply Permutation_refl.
      destruct (@jump_runs _ _ (rt1_root I Hp) (b_vs s)) as (P' & HP).
      edestruct IH as (s' & Hs'); [|eapply (round_inv I Hp HP)|].
      + cbn [b_vs]. pose proof (round_smaller I Hp Hne). lia.
      + exists s'. eapply bl_step; [exact E| |exact Hs']. now apply b_round.
  Qed.
End Batch.
