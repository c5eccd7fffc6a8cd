(* Proofs for C90: the first batch. *)
From Coq Require Import Permutation Relations.
From Verif Require Import Base ListUtil EMModel SVModel SVProofs UFSpec LTModel LTProofs LBModel LBSpec LBProofs.
Unset Strict Implicit.

Section First.
  Variables largest n : nat.
  Hypothesis Hn : n <= largest.
  Variable E : list (nat * nat).
  Hypothesis HE : forall a b, In (a, b) E -> a < n /\ b < n.
  Variables (c : connect_option) (o : update_option).
  Hypothesis Hopt : c = ParentConnect \/ (c = ExtendedConnect /\ o = RootUpdate).
  Notation C := (connected E).
  Notation good := (good n E).
  Definition Ep (x : nat) : Prop := In x (endpoints E).

  Lemma ep_edge a b : In (a, b) E -> Ep a /\ Ep b.
  Proof. intros H. split; apply endpoints_in; exists (a, b); auto. Qed.
  Lemma ep_both x y : C x y -> x <> y -> Ep x /\ Ep y.
  Proof.
    induction 1 as [x y H|x|x y H IH|x y z H1 IH1 H2 IH2]; intros Hne; [now apply ep_edge|congruence|destruct IH; auto|].
    destruct (Nat.eq_dec x y) as [->|Hxy]; [now apply IH2|]. destruct (Nat.eq_dec y z) as [->|Hyz]; [now apply IH1|].
    split; [now apply IH1|now apply IH2].
  Qed.
  Lemma ep_conn x y : Ep x -> C x y -> Ep y.
  Proof. intros Hx Hc. destruct (Nat.eq_dec x y) as [->|Hne]; auto. now apply (ep_both Hc). Qed.
  Lemma ep_lt x : Ep x -> x < n.
  Proof. intros H. apply endpoints_in in H as ([a b] & Hab & H). destruct (HE Hab). destruct H; subst; auto. Qed.
  Lemma non_ep f x : good f -> x < n -> ~ Ep x -> f x = x.
  Proof. intros Hf Hx He. destruct (Hf x Hx) as [_ Hc]. destruct (Nat.eq_dec (f x) x); auto. destruct He. apply (ep_both Hc). auto. Qed.

  Record finv (s : lbst) : Prop := {
    iP : good (bP s);
    iM : good (bM s);
    iflat : forall x, x < n -> bP s (bP s x) = bP s x;
    ile : forall x, x < n -> bP s x <= bM s x;
    iF : forall x, bF s x = false }.

  Section Round.
    Variables (s : lbst) (calls : list (nat * nat)) (msgs : nat -> nat) (ch : bool).
    Hypothesis HI : finv s.
    Hypothesis Hcalls : Permutation calls (flat_map (connect_calls largest c (bP s)) E).
    Hypothesis Hw : msg_writes largest calls (bM s) = (msgs, ch).
    Let P := bP s.
    Definition T (x : nat) : nat := if P x =? x then Nat.min x (msgs x) else P x.

    Lemma eok : edges_ok n E E.
    Proof. intros a b Hab. destruct (HE Hab). repeat split; auto. now apply rst_step. Qed.
    Lemma msgs_facts : good msgs /\ (forall v, msgs v <= bM s v) /\ (forall h l, In (h, l) calls -> msgs h <= l) /\
      (forall v, msgs v = bM s v \/ In (v, msgs v) calls) /\ (ch = false -> forall v, msgs v = bM s v) /\ (ch = true -> total n msgs < total n (bM s)).
    Proof.
      destruct (@writes_ok largest n Hn E calls (calls_all Hn (iP HI) eok Hcalls) _ _ _ _ (iM HI) Hw) as (A & B & D & F & G & _ & K).
      split; auto. split; auto. split; auto. split; auto. split; [intros H; now apply G|]. intros H. destruct (K H); [discriminate|auto].
    Qed.
    Lemma Plt x : x < n -> P x < n. Proof. intros. apply (gl Hn (iP HI)); auto. Qed.
    Lemma parent_call h l : c = ParentConnect -> In (h, l) calls -> P h = h.
    Proof.
      intros Hc Hin. apply (Permutation_in _ Hcalls), in_flat_map in Hin as ([a b] & Hab & Hin). destruct (HE Hab) as [Ha Hb]. rewrite Hc in Hin.
      unfold connect_calls in Hin. cbn [fst snd] in Hin. fold P in Hin. pose proof (Plt Ha). pose proof (Plt Hb).
      rewrite !(not_largest Hn), (min_min Hn), (max_max Hn) in Hin by auto. destruct (_ =? _) in Hin; [destruct Hin|]. destruct Hin as [Ex|[]]. inversion Ex; subst.
      destruct (Nat.max_spec (P a) (P b)) as [[_ ->]|[_ ->]]; apply (iflat HI); auto.
    Qed.
    Lemma T_good : good T.
    Proof.
      intros x Hx. unfold T. destruct msgs_facts as (GM & _). destruct (GM x Hx) as [M1 M2]. destruct (iP HI Hx) as [P1 P2]. fold P in P1, P2.
      destruct (Nat.eqb_spec (P x) x); auto. rewrite Nat.min_r by auto. auto.
    Qed.
    Lemma upd f x : x < n -> f x = P x \/ f x = T x -> update_cell largest o f msgs x = T x.
    Proof.
      intros Hx Hf. destruct msgs_facts as (GM & _ & _ & Mf & _). destruct (GM x Hx) as [M1 _]. destruct (T_good Hx) as [T1 _]. pose proof (Plt Hx).
      assert (Hfn : f x < n) by lia. unfold update_cell. rewrite (min_min Hn) by lia. unfold T in *. destruct (Nat.eqb_spec (P x) x) as [Er|Er].
      - assert (f x = x \/ f x = Nat.min x (msgs x)) by (rewrite Er in Hf; auto). clear Hopt. destruct o; [lia|]. destruct (Nat.eqb_spec x (f x)); lia.
      - assert (Ef : f x = P x) by tauto. rewrite Ef. assert (Eo : o = SimpleUpdate \/ o = RootUpdate) by (clear; destruct o; auto). destruct Eo as [Eo|Eo]; rewrite Eo.
        + assert (Hc : c = ParentConnect) by (destruct Hopt as [|[_ X]]; [auto|congruence]).
          destruct (Mf x) as [Em|Em]; [pose proof (ile HI Hx) as L; fold P in L; lia|]. apply (parent_call Hc) in Em. congruence.
        + destruct (Nat.eqb_spec x (P x)); congruence.
    Qed.
    Definition cover (F : nat -> bool) (a b : nat) (xs : list nat) : Prop :=
      (forall y, In y xs -> Ep y) /\ (forall y, y = a \/ y = b -> In y xs \/ F y = true).
    Definition ulocal (F : nat -> bool) (a b : nat) (pc : upc) : Prop :=
      match pc with
      | U1 u v => u = a /\ v = b
      | U2 u v p => u = a /\ v = b /\ Ep p
      | UT xs => cover F a b xs
      | UW x xs => Ep x /\ F x = true /\ cover F a b xs
      end.
    Record uinv (us : ustate) : Prop := {
      u1 : forall x, x < n -> uP us x = P x \/ uP us x = T x;
      u2 : forall y, uF us y = true -> Ep y /\ (uP us y = T y \/ exists t xs, nth_error (uthr us) t = Some (UW y xs));
      u3 : forall t pc, nth_error (uthr us) t = Some pc -> exists a b, nth_error E t = Some (a, b) /\ ulocal (uF us) a b pc;
      u4 : length (uthr us) = length E }.
    Lemma ulocal_mono F F' a b pc : (forall y, F y = true -> F' y = true) -> ulocal F a b pc -> ulocal F' a b pc.
    Proof.
      intros H. assert (K : forall xs, cover F a b xs -> cover F' a b xs) by (intros xs [A B]; split; auto; intros y Hy; destruct (B y Hy); auto).
      destruct pc; cbn; auto. intros (A & B & D). auto.
    Qed.
    Lemma ep_uP us a : uinv us -> Ep a -> Ep (uP us a).
    Proof.
      intros HU Ha. pose proof (ep_lt Ha) as Hl. apply (ep_conn Ha). destruct (u1 HU Hl) as [->| ->]; [apply (iP HI Hl)|apply (T_good Hl)].
    Qed.
    (* a step that replaces the state of thread t *)
    Lemma uinv_set us t pc pc' P' F' : uinv us -> nth_error (uthr us) t = Some pc ->
      (forall x, x < n -> P' x = P x \/ P' x = T x) ->
      (forall y, uP us y = T y -> P' y = T y) ->
      (forall y, uF us y = true -> F' y = true) ->
      (forall y, F' y = true -> uF us y = true \/ (Ep y /\ exists xs, pc' = UW y xs)) ->
      (forall x xs, pc = UW x xs -> P' x = T x) ->
      (forall a b, ulocal (uF us) a b pc -> Ep a -> Ep b -> ulocal F' a b pc') ->
      uinv {| uP := P'; uF := F'; uthr := lset (uthr us) t pc' |}.
    Proof.
      intros HU Ht H1 H1' H2 H3 H4 H5. assert (Hlt : t < length (uthr us)) by (apply nth_error_Some; congruence). split; cbn [uP uF uthr].
      - exact H1.
      - intros y Hy. destruct (H3 y Hy) as [Hy'|(Hy' & xs & ->)].
        + destruct (u2 HU Hy') as (A & [B|(t' & xs & B)]); split; auto. destruct (Nat.eq_dec t' t) as [->|Hne].
          * left. apply (H4 y xs). congruence.
          * right. exists t', xs. rewrite nth_error_lset_other by auto. exact B.
        + split; auto. right. exists t, xs. now rewrite nth_error_lset_same.
      - intros t' q Hq. destruct (Nat.eq_dec t' t) as [->|Hne].
        + rewrite nth_error_lset_same in Hq by auto. inversion Hq; subst q. destruct (u3 HU Ht) as (a & b & Eab & L). exists a, b. split; auto.
          destruct (ep_edge (nth_error_In _ _ Eab)). auto.
        + rewrite nth_error_lset_other in Hq by auto. destruct (u3 HU Hq) as (a & b & Eab & L). exists a, b. split; auto. now apply ulocal_mono with (uF us).
      - rewrite length_lset. apply (u4 HU).
    Qed.
    Lemma ustep_inv us t : uinv us -> uinv (ustep largest o msgs us t).
    Proof.
      intros HU. unfold ustep. destruct (nth_error (uthr us) t) as [pc|] eqn:Et; auto. destruct pc as [u v|u v p|[|x xs]|x xs]; auto.
      - apply (@uinv_set us t (U1 u v)); auto; try apply (u1 HU); try discriminate. intros a b (-> & ->) Ha Hb. cbn. repeat split; auto. now apply ep_uP.
      - apply (@uinv_set us t (U2 u v p)); auto; try apply (u1 HU); try discriminate. intros a b (-> & -> & Hp) Ha Hb. cbn. split.
        + intros y [<-|[<-|[<-|[<-|[]]]]]; auto. now apply ep_uP.
        + intros y [->| ->]; left; simpl; auto.
      - destruct (u3 HU Et) as (a0 & b0 & _ & A0 & _). destruct (uF us x) eqn:Ef.
        + apply (@uinv_set us t (UT (x :: xs))); auto; try apply (u1 HU); try discriminate. intros a b (A & B) Ha Hb. split; [intros y Hy; apply A; now right|].
          intros y Hy. destruct (B y Hy) as [[->|Hin]|Hin]; auto.
        + apply (@uinv_set us t (UT (x :: xs))); auto; try apply (u1 HU); try discriminate.
          * intros y Hy. unfold fsetb. destruct (y =? x); auto.
          * intros y Hy. unfold fsetb in Hy. destruct (Nat.eqb_spec y x) as [Ey|Ey]; [subst y|auto]. right. split; [apply A0; now left|eauto].
          * intros a b (A & B) Ha Hb. cbn. split; [apply A; now left|]. split; [unfold fsetb; now rewrite Nat.eqb_refl|]. split; [intros y Hy; apply A; now right|].
            intros y Hy. unfold fsetb. destruct (Nat.eqb_spec y x) as [->|Hne]; auto. destruct (B y Hy) as [[->|Hin]|Hin]; auto.
      - destruct (u3 HU Et) as (a0 & b0 & _ & Hx & Hfx & _). pose proof (ep_lt Hx) as Hlx. pose proof (@upd (uP us) x Hlx (u1 HU Hlx)) as Ux. rewrite Ux.
        apply (@uinv_set us t (UW x xs)); auto.
        + intros y Hy. unfold fset. destruct (Nat.eqb_spec y x) as [->|]; auto. now apply (u1 HU).
        + intros y Hy. unfold fset. destruct (Nat.eqb_spec y x) as [->|]; auto.
        + intros y ys Ey. inversion Ey; subst. apply fset_same.
        + intros a b (A & B & D) Ha Hb. exact D.
    Qed.
    Lemma ustart_inv : uinv (ustart P (bF s) E).
    Proof.
      split; cbn [ustart uP uF uthr].
      - auto.
      - intros y Hy. rewrite (iF HI) in Hy. discriminate.
      - intros t pc Ht. rewrite nth_error_map in Ht. destruct (nth_error E t) as [[a b]|]; [|discriminate]. inversion Ht; subst. exists a, b. cbn. auto.
      - apply map_length.
    Qed.
    Lemma uexec_inv sched : forall us, uinv us -> uinv (uexec largest o msgs sched us).
    Proof. unfold uexec. induction sched as [|t r IH]; intros us H; simpl; auto. apply IH. now apply ustep_inv. Qed.
    Lemma updated us : uinv us -> ufinished us -> good (uP us) -> (forall x, x < n -> uP us x = T x) /\ forall y, uF us y = true -> Ep y.
    Proof.
      intros HU HF HG. split; [|intros y Hy; apply (u2 HU Hy)]. intros x Hx. destruct (in_dec Nat.eq_dec x (endpoints E)) as [He|He].
      - pose proof He as He'. apply endpoints_in in He' as ([a b] & Hab & Hxe). apply In_nth_error in Hab as (t & Ht).
        destruct (nth_error (uthr us) t) as [pc|] eqn:Ep'; [|apply nth_error_None in Ep'; rewrite (u4 HU) in Ep'; assert (t < length E) by (apply nth_error_Some; congruence); lia].
        destruct (u3 HU Ep') as (a' & b' & Eab & L). rewrite Ht in Eab. inversion Eab; subst a' b'. rewrite (HF pc (nth_error_In _ _ Ep')) in L. destruct L as [_ L].
        destruct (L x Hxe) as [[]|Fx]. destruct (u2 HU Fx) as (_ & [B|(t' & xs & B)]); auto. apply nth_error_In in B. apply HF in B. discriminate.
      - rewrite (non_ep HG Hx He), (non_ep T_good Hx He). reflexivity.
    Qed.
    (* a message to a vertex that is no root is also one to its parent *)
    Lemma ext_call h l : c = ExtendedConnect -> In (h, l) calls -> P h <> h -> In (P h, l) calls /\ P (P h) = P h.
    Proof.
      intros Hc Hin Hne. pose proof (Permutation_in _ Hcalls Hin) as Hin'. apply in_flat_map in Hin' as ([a b] & Hab & Hin'). destruct (HE Hab) as [Ha Hb].
      assert (Back : forall x, In x (connect_calls largest c (bP s) (a, b)) -> In x calls) by (intros x Hx; eapply Permutation_in; [apply Permutation_sym; exact Hcalls|]; apply in_flat_map; exists (a, b); auto).
      pose proof (iflat HI Ha) as Fa. pose proof (iflat HI Hb) as Fb. fold P in Fa, Fb.
      rewrite Hc in Hin', Back. unfold connect_calls in Hin', Back. cbn [fst snd] in Hin', Back. rewrite !(not_largest Hn) in Hin', Back by auto. fold P in Hin', Back.
      destruct (P a =? P b); [destruct Hin'|]. destruct (lt_less largest (P b) (P a)).
      - destruct Hin' as [Ex|[Ex|[]]]; inversion Ex; subst; [|exfalso; exact (Hne Fa)]. split; [|exact Fa]. apply Back. right. now left.
      - destruct (lt_greater largest (P b) (P a)); [|destruct Hin']. destruct Hin' as [Ex|[Ex|[]]]; inversion Ex; subst; [exfalso; exact (Hne Fb)|]. split; [|exact Fb]. apply Back. now left.
    Qed.
    (* the new root of a vertex is no larger than its message *)
    Lemma root_msg f R x : (forall x, x < n -> f x = T x) -> ranked n (fun x => x) f -> rooted n f R -> x < n -> R x <= msgs x.
    Proof.
      intros Hf HK HRt Hx. destruct msgs_facts as (GM & _ & M2 & M3 & _).
      assert (RT : forall y, y < n -> R y <= T y).
      { intros y Hy. destruct (T_good Hy) as [Ty _]. destruct (HRt y Hy) as (_ & <- & _). rewrite Hf by auto. assert (L : T y < n) by lia.
        destruct (rooted_le HK HRt L) as [Er|Er]; lia. }
      destruct (Nat.eq_dec (P x) x) as [Er|Er].
      - specialize (RT x Hx). unfold T in RT. rewrite (proj2 (Nat.eqb_eq _ _) Er) in RT. lia.
      - assert (Tx : T x = P x) by (unfold T; now rewrite (proj2 (Nat.eqb_neq _ _) Er)).
        destruct (M3 x) as [Em|Em]; [rewrite Em; specialize (RT x Hx); pose proof (ile HI Hx) as L; fold P in L; lia|].
        destruct Hopt as [Hc|[Hc _]]; [apply (parent_call Hc) in Em; congruence|]. destruct (ext_call Hc Em Er) as [Hin Hr]. specialize (M2 _ _ Hin).
        pose proof (Plt Hx) as Lp. destruct (HRt x Hx) as (_ & E2 & _). rewrite (Hf x Hx), Tx in E2. rewrite <- E2. specialize (RT _ Lp). unfold T in RT. rewrite Hr, Nat.eqb_refl in RT. lia.
    Qed.
    Lemma T_ranked f : (forall x, x < n -> f x = T x) -> ranked n (fun x => x) f.
    Proof. intros H x Hx. rewrite H by auto. destruct (T_good Hx). split; [lia|]. lia. Qed.
  End Round.

  Lemma round_inv s E' s' ch : finv s -> lb_round largest c o true false E s E' s' ch ->
    E' = E /\ finv s' /\ (ch = false -> forall a b, In (a, b) E -> bP s' a = bP s' b) /\ (ch = true -> total n (bM s') < total n (bM s)).
  Proof.
    intros HI HR. pose proof (@lb_round_good largest n Hn E c o true false E s E' s' ch eok (conj (iP HI) (iM HI)) HR) as [_ [GP GM]].
    destruct HR as [calls msgs ch usched sched Hp Hw us Hus F1 vs js Hjs F2]. split; auto. cbn [bP bM] in *.
    pose proof (msgs_facts HI Hp Hw) as (GMs & M1 & M2 & M3 & M4 & M5).
    assert (GU : good (uP us)).
    { apply (uexec_good Hn); auto; [apply (iP HI)|]. intros pc Hin. simpl in Hin. apply in_map_iff in Hin as ([a b] & <- & Hab). destruct (HE Hab). cbn. auto. }
    assert (UI : uinv s msgs us) by (apply (uexec_inv HI Hp Hw), (ustart_inv msgs HI)).
    destruct (updated HI Hp Hw UI Hus GU) as [UT UF].
    assert (HF1 : forall x, F1 x = false).
    { intros x. unfold F1, clear_flags. destruct (uF us x) eqn:Ef; auto. specialize (UF x Ef). apply endpoints_in in UF as (e & He & Hx). cbn [andb].
      apply negb_false_iff. apply existsb_exists. exists e. split; auto. destruct Hx as [->| ->]; rewrite Nat.eqb_refl, ?orb_true_r; auto. }
    assert (Hvs : vs = endpoints E).
    { unfold vs, shortcut_cells. induction (endpoints E) as [|x l IH]; cbn; auto. rewrite HF1. cbn. now rewrite IH. }
    set (R := rootf (fun x => x) (uP us)).
    assert (HK : ranked n (fun x => x) (uP us)) by (apply (T_ranked HI Hp Hw); auto).
    assert (HRt : rooted n (uP us) R) by (apply rootf_rooted; auto).
    assert (HJ : jinv largest n (fun x => x) R true (uP us) vs js).
    { apply jexec_inv; [rewrite Hvs; apply NoDup_nodup|]. apply jstart_inv; auto. intros u Hu. rewrite Hvs in Hu. now apply ep_lt. }
    assert (HP2 : forall x, x < n -> jpar js x = R x).
    { intros x Hx. destruct (in_dec Nat.eq_dec x (endpoints E)) as [He|He].
      - apply (jumped eq_refl HJ Hjs). now rewrite Hvs.
      - rewrite (non_ep GP Hx He). symmetry. apply (proj2 (proj2 (HRt x Hx))). apply (non_ep GU Hx He). }
    assert (Rlt : forall x, x < n -> R x < n) by (intros x Hx; apply (HRt x Hx)).
    split; [split; cbn [bP bM bF]; auto|split].
    - intros x Hx. rewrite (HP2 x Hx), HP2 by auto. apply (rooted_idem HK HRt Hx).
    - intros x Hx. unfold reset_msgs. destruct (existsb (Nat.eqb x) vs) eqn:Ex; auto.
      assert (He : ~ Ep x).
      { intros He. unfold Ep in He; rewrite <- Hvs in He. rewrite <- not_true_iff_false in Ex. apply Ex. apply existsb_exists. exists x. split; auto. apply Nat.eqb_refl. }
      rewrite (non_ep GP Hx He), (non_ep GMs Hx He). auto.
    - intros x. unfold clear_ends. destruct (existsb (Nat.eqb x) (endpoints E)) eqn:Ex; [apply andb_false_r|]. unfold F2. rewrite HF1, Hvs, Ex. reflexivity.
    - intros Hch. specialize (M4 Hch).
      assert (Teq : forall x, x < n -> T s msgs x = bP s x).
      { intros x Hx. unfold T. destruct (Nat.eqb_spec (bP s x) x) as [Er|]; auto. rewrite M4. pose proof (ile HI Hx). lia. }
      assert (P2 : forall x, x < n -> jpar js x = bP s x).
      { intros x Hx. rewrite HP2 by auto. pose proof (iflat HI Hx) as Hf. pose proof (gl Hn (iP HI) Hx) as Hlt.
        destruct (HRt x Hx) as (_ & <- & _). rewrite UT, Teq by auto. apply (proj2 (proj2 (HRt _ Hlt))). rewrite UT, Teq by auto. exact Hf. }
      intros a b Hab. destruct (HE Hab) as [Ha Hb]. rewrite !P2 by auto.
      assert (Hno : forall h l, In (h, l) (connect_calls largest c (bP s) (a, b)) -> bP s h = h -> h < n -> l < h -> False).
      { intros h l Hin Hh Hhn Hl. assert (Hc : In (h, l) calls) by (eapply Permutation_in; [apply Permutation_sym; exact Hp|]; apply in_flat_map; exists (a, b); auto).
        specialize (M2 h l Hc). rewrite M4 in M2. pose proof (ile HI Hhn). lia. }
      pose proof (gl Hn (iP HI) Ha) as La. pose proof (gl Hn (iP HI) Hb) as Lb. pose proof (iflat HI Ha) as Fa. pose proof (iflat HI Hb) as Fb.
      unfold connect_calls in Hno. cbn [fst snd] in Hno. rewrite !(not_largest Hn) in Hno by auto.
      destruct (Nat.lt_trichotomy (bP s a) (bP s b)) as [L|[L|L]]; auto; exfalso.
      + apply (Hno (bP s b) (bP s a)); auto. destruct Hopt as [->|[-> _]].
        * rewrite (min_min Hn), (max_max Hn), Nat.min_l, Nat.max_r by lia. rewrite (proj2 (Nat.eqb_neq _ _)) by lia. now left.
        * rewrite (proj2 (Nat.eqb_neq _ _)) by lia. rewrite (less_ltb Hn), (greater_ltb Hn) by auto.
          rewrite (proj2 (Nat.ltb_ge _ _)) by lia. rewrite (proj2 (Nat.ltb_lt _ _)) by lia. now left.
      + apply (Hno (bP s a) (bP s b)); auto. destruct Hopt as [->|[-> _]].
        * rewrite (min_min Hn), (max_max Hn), Nat.min_r, Nat.max_l by lia. rewrite (proj2 (Nat.eqb_neq _ _)) by lia. now left.
        * rewrite (proj2 (Nat.eqb_neq _ _)) by lia. rewrite (less_ltb Hn) by auto. rewrite (proj2 (Nat.ltb_lt _ _)) by lia. right. now left.
    - intros Hch. cbn [bM]. apply Nat.le_lt_trans with (total n msgs); [|now apply M5]. apply (total_le Hn). intros x Hx. unfold reset_msgs. destruct (existsb (Nat.eqb x) vs); auto.
      rewrite HP2 by auto. now apply (root_msg HI Hp Hw UT HK HRt).
  Qed.
  (* a round can always be run *)
  Lemma round_exists s : finv s -> exists s' ch, lb_round largest c o true false E s E s' ch.
  Proof.
    intros HI. destruct (msg_writes largest (flat_map (connect_calls largest c (bP s)) E) (bM s)) as [msgs ch] eqn:Hw. pose proof (Permutation_refl (flat_map (connect_calls largest c (bP s)) E)) as Hp.
    destruct (@usome_schedule largest o msgs _ (ustart (bP s) (bF s) E) (le_n _)) as [usched Hus].
    set (us := uexec largest o msgs usched (ustart (bP s) (bF s) E)) in *.
    pose proof (msgs_facts HI Hp Hw) as (GMs & _).
    assert (GU : good (uP us)).
    { apply (uexec_good Hn); auto; [apply (iP HI)|]. intros pc Hin. simpl in Hin. apply in_map_iff in Hin as ([a b] & <- & Hab). destruct (HE Hab). cbn. auto. }
    assert (UI : uinv s msgs us) by (apply (uexec_inv HI Hp Hw), (ustart_inv msgs HI)).
    destruct (updated HI Hp Hw UI Hus GU) as [UT UF].
    assert (HK : ranked n (fun x => x) (uP us)) by (apply (T_ranked HI Hp Hw); auto).
    set (vs := shortcut_cells E (clear_flags (uP us) E (uF us))).
    destruct (@jsome_schedule largest n (fun x => x) (rootf (fun x => x) (uP us)) true (uP us) vs (jstart (B1 true) (uP us) vs)) as [sched F].
    - unfold vs, shortcut_cells. apply NoDup_filter, NoDup_nodup.
    - apply jstart_inv; auto; [now apply rootf_rooted|]. intros u Hu. unfold vs, shortcut_cells in Hu. apply filter_In in Hu as [Hu _]. now apply ep_lt.
    - do 2 eexists. exact (@lb_round_intro largest c o true false E s _ msgs ch usched sched Hp Hw Hus F).
  Qed.
  Lemma total_id : total n (fun i => i) <= n * n.
  Proof.
    unfold total. assert (X : forall l, (forall v, In v l -> v < n) -> list_sum (map (fun i => i) l) <= length l * n).
    { induction l as [|a l IH]; intros Hl; simpl; auto. pose proof (Hl a (or_introl eq_refl)). specialize (IH (fun v Hv => Hl v (or_intror Hv))). lia. }
    etransitivity; [apply X|rewrite seq_length; lia]. intros v Hv. apply in_seq in Hv. lia.
  Qed.
  Lemma init_inv : finv (lb_init).
  Proof. split; cbn; auto; intros v Hv; split; auto; apply rst_refl. Qed.
  Lemma loop_inv k E' s' ch : lb_loop largest c o true false E lb_init k E' s' ch ->
    E' = E /\ finv s' /\ (ch = false -> forall a b, In (a, b) E -> bP s' a = bP s' b) /\ (ch = true -> k + total n (bM s') <= n * n).
  Proof.
    induction 1 as [|k E1 s1 E2 s2 ch HL IH HR].
    - split; auto. split; [apply init_inv|]. split; [discriminate|]. intros _. apply total_id.
    - destruct IH as (-> & HI & _ & Hk). specialize (Hk eq_refl). destruct (round_inv HI HR) as (A & B & D & F). split; auto. split; auto. split; auto.
      intros Hc. specialize (F Hc). lia.
  Qed.
  Lemma loop_ends : exists k s, lb_loop largest c o true false E lb_init k E s false.
  Proof.
    assert (X : forall d k s, lb_loop largest c o true false E lb_init k E s true -> S (n * n) <= d + k -> exists k s, lb_loop largest c o true false E lb_init k E s false).
    { induction d as [|d IH]; intros k s HL Hd; destruct (loop_inv HL) as (_ & HI & _ & Hk); specialize (Hk eq_refl); [lia|].
      destruct (round_exists HI) as (s' & ch & HR). pose proof (lb_next HL HR) as HL'. destruct ch; [|eauto]. apply (IH _ _ HL'). lia. }
    apply (X (S (n * n)) 0 lb_init); [constructor|lia].
  Qed.
  (* queries leave a flat forest alone *)
  Definition qlocal (P : nat -> nat) (u : nat) (pc : jpc) : Prop :=
    u < n /\ match pc with A1 => True | A2 a => a = P u | A3 a b => a = P u /\ b = P u | A7 => True | JDone _ => True | _ => False end.
  Lemma queries_flat P vs sched : (forall x, x < n -> P (P x) = P x) -> (forall u, In u vs -> u < n) ->
    jpar (jexec largest sched (jstart A1 P vs)) = P.
  Proof.
    intros Hf Hv.
    assert (G : forall sched js, jpar js = P -> (forall u pc, In (u, pc) (jthr js) -> qlocal P u pc) -> jpar (jexec largest sched js) = P).
    { clear sched. induction sched as [|t r IH]; intros js Hj Ht; cbn; auto. unfold jexec in *. apply IH.
      - unfold jstep. destruct (nth_error (jthr js) t) as [[u pc]|] eqn:Et; auto. destruct (Ht u pc (nth_error_In _ _ Et)) as [Hu L]. destruct pc; cbn in *; auto; contradiction.
      - unfold jstep. destruct (nth_error (jthr js) t) as [[u pc]|] eqn:Et; auto. destruct (Ht u pc (nth_error_In _ _ Et)) as [Hu L].
        destruct (jact largest (jpar js) u pc) as [w pc'] eqn:Ea. cbn [jthr]. intros v q Hin. apply In_lset in Hin as [Hin|Hin]; auto. inversion Hin; subst v q.
        split; auto. rewrite Hj in Ea. destruct pc; cbn in *; inversion Ea; subst; try contradiction; auto. destruct L as [-> ->]. rewrite Hf, Nat.eqb_refl by auto. auto. }
    apply G; auto. intros u pc Hin. cbn in Hin. apply in_map_iff in Hin as (x & Ex & Hx). inversion Ex; subst. split; auto.
  Qed.
End First.

Lemma queries_finish largest n P vs : (forall x, x < n -> P (P x) = P x) -> (forall u, In u vs -> u < n) ->
  exists sched, jfinished (jexec largest sched (jstart A1 P vs)).
Proof.
  intros Hf Hv. exists (flat_map (fun t => repeat t 4) (seq 0 (length vs))).
  assert (X : forall l l0, (forall u, In u l -> u < n) -> (forall u pc, In (u, pc) l0 -> exists x, pc = JDone x) ->
    jfinished (jexec largest (flat_map (fun t => repeat t 4) (seq (length l0) (length l))) {| jpar := P; jthr := l0 ++ map (fun u => (u, A1)) l |})).
  { induction l as [|u l IH]; intros l0 Hl H0.
    - cbn. intros u pc Hin. cbn in Hin. rewrite app_nil_r in Hin. eauto.
    - assert (L : forall x y r, lset (l0 ++ x :: r) (length l0) y = l0 ++ (y : nat * jpc) :: r) by (intros x y r; clear; induction l0; cbn; congruence).
      assert (N : forall x r, nth_error (l0 ++ (x : nat * jpc) :: r) (length l0) = Some x) by (intros x r; clear; induction l0; cbn; auto).
      assert (Hu : u < n) by (apply Hl; now left).
      cbn [length seq flat_map]. unfold jexec. rewrite fold_left_app. cbn [repeat fold_left map].
      assert (S1 : jstep largest {| jpar := P; jthr := l0 ++ (u, A1) :: map (fun u => (u, A1)) l |} (length l0) = {| jpar := P; jthr := l0 ++ (u, A2 (P u)) :: map (fun u => (u, A1)) l |}) by (unfold jstep; cbn [jthr]; rewrite N; cbn [jact jpar]; now rewrite L).
      rewrite S1. assert (S2 : jstep largest {| jpar := P; jthr := l0 ++ (u, A2 (P u)) :: map (fun u => (u, A1)) l |} (length l0) = {| jpar := P; jthr := l0 ++ (u, A3 (P u) (P u)) :: map (fun u => (u, A1)) l |}) by (unfold jstep; cbn [jthr]; rewrite N; cbn [jact jpar]; now rewrite L).
      rewrite S2. assert (S3 : jstep largest {| jpar := P; jthr := l0 ++ (u, A3 (P u) (P u)) :: map (fun u => (u, A1)) l |} (length l0) = {| jpar := P; jthr := l0 ++ (u, A7) :: map (fun u => (u, A1)) l |}) by (unfold jstep; cbn [jthr]; rewrite N; cbn [jact jpar]; rewrite Hf, Nat.eqb_refl by auto; now rewrite L).
      rewrite S3. assert (S4 : jstep largest {| jpar := P; jthr := l0 ++ (u, A7) :: map (fun u => (u, A1)) l |} (length l0) = {| jpar := P; jthr := (l0 ++ [(u, JDone (P u))]) ++ map (fun u => (u, A1)) l |}) by (unfold jstep; cbn [jthr]; rewrite N; cbn [jact jpar]; rewrite L; now rewrite <- app_assoc).
      rewrite S4. specialize (IH (l0 ++ [(u, JDone (P u))])). rewrite app_length, Nat.add_1_r in IH. apply IH; [intros x Hx; apply Hl; now right|].
      intros x pc Hin. apply in_app_or in Hin as [Hin|[Hin|[]]]; [eauto|inversion Hin; eauto]. }
  apply (X vs []); auto. intros u pc [].
Qed.

Theorem first_batch largest n c o ups s : n <= largest -> (forall u v t, In (u, v, t) ups -> u < n /\ v < n) ->
  c = ParentConnect \/ (c = ExtendedConnect /\ o = RootUpdate) -> lb_batch largest c o true false ups lb_init s ->
  forall u v, u < n -> v < n -> (bP s u = bP s v <-> connected (map fst (filter snd ups)) u v).
Proof.
  intros Hn Hb Hopt HB. set (E := map fst (filter snd ups)).
  assert (HE : forall a b, In (a, b) E -> a < n /\ b < n).
  { intros a b Hab. apply in_map_iff in Hab as ([[x y] t] & Ex & Hin). cbn in Ex. inversion Ex; subst. apply filter_In in Hin as [Hin _]. eauto. }
  destruct HB as [re k r E1 s1 sched Hr HL js Hjs]. unfold reorder_updates in Hr. inversion Hr; subst re k; clear Hr.
  rewrite firstn_app, Nat.sub_diag, firstn_all, firstn_O, app_nil_r in HL. fold E in HL.
  destruct (loop_inv Hn HE Hopt HL) as (_ & HI & Heq & _). specialize (Heq eq_refl).
  assert (Ej : jpar js = bP s1).
  { apply (@queries_flat largest n); [apply (iflat HI)|]. intros u Hu. apply in_flat_map in Hu as ([[x y] b] & Hin & Hu).
    assert (Hin' : In (x, y, b) ups) by (rewrite <- (firstn_skipn (length ups - length (filter snd ups)) ups); apply in_or_app; auto).
    destruct (Hb x y b Hin'). cbn in Hu. destruct Hu as [<-|[<-|[]]]; auto. }
  cbn [bP]. rewrite Ej. intros u v Hu Hv. split.
  - intros E2. destruct (iP HI Hu) as [_ Cu], (iP HI Hv) as [_ Cv]. rewrite <- E2 in Cv. eapply rst_trans; [exact Cu|]. apply rst_sym. exact Cv.
  - clear Hu Hv. induction 1 as [a b H|a|a b H IH|a b d H1 IH1 H2 IH2]; auto; congruence.
Qed.
Theorem first_ends largest n c o ups : n <= largest -> (forall u v t, In (u, v, t) ups -> u < n /\ v < n) ->
  c = ParentConnect \/ (c = ExtendedConnect /\ o = RootUpdate) ->
  (exists s, lb_batch largest c o true false ups lb_init s) /\
  (forall k E s, lb_loop largest c o true false (map fst (filter snd ups)) lb_init k E s true ->
     k <= n * n /\ E = map fst (filter snd ups) /\ exists s' ch, lb_round largest c o true false E s E s' ch).
Proof.
  intros Hn Hb Hopt. set (E := map fst (filter snd ups)).
  assert (HE : forall a b, In (a, b) E -> a < n /\ b < n).
  { intros a b Hab. apply in_map_iff in Hab as ([[x y] t] & Ex & Hin). cbn in Ex. inversion Ex; subst. apply filter_In in Hin as [Hin _]. eauto. }
  split.
  - destruct (loop_ends Hn HE Hopt) as (k & s & HL). destruct (loop_inv Hn HE Hopt HL) as (_ & HI & _).
    destruct (@queries_finish largest n (bP s) (flat_map (fun x => [fst (fst x); snd (fst x)]) (firstn (length ups - length (filter snd ups)) ups)) (iflat HI)) as [sched F].
    { intros u Hu. apply in_flat_map in Hu as ([[x y] b] & Hin & Hu).
      assert (Hin' : In (x, y, b) ups) by (rewrite <- (firstn_skipn (length ups - length (filter snd ups)) ups); apply in_or_app; auto).
      destruct (Hb x y b Hin'). cbn in Hu. destruct Hu as [<-|[<-|[]]]; auto. }
    eexists. eapply lb_batch_intro; [reflexivity| |exact F]. rewrite firstn_app, Nat.sub_diag, firstn_all, firstn_O, app_nil_r. exact HL.
  - intros k E1 s HL. destruct (loop_inv Hn HE Hopt HL) as (-> & HI & _ & Hk). specialize (Hk eq_refl). split; [lia|]. split; auto. exact (round_exists Hn HE Hopt HI).
Qed.
