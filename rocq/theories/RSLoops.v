(* Proofs for C78: the loops of the Shiloach-Vishkin and Liu-Tarjan spanning forests. *)
From Coq Require Import Permutation.
From Verif Require Import Base ListUtil UFSpec CTSpec JATree EMModel SVModel LTModel RSModel SVProofs RSProofs.
Unset Strict Implicit.

Lemma in_edges n outn par0 freq u v : In (u, v) (sv_edges n outn par0 freq) <->
  In (u, v) (pairs n outn) /\ match freq with Some f => par0 u <> f | None => True end.
Proof.
  unfold sv_edges, pairs. rewrite !in_flat_map. split.
  - intros (x & Hx & H). pose proof H as H'. apply in_map_iff in H as (y & E & Hy). injection E as -> ->.
    apply filter_In in Hx as [Hx F]. split; [eauto|]. destruct freq; auto. apply negb_true_iff, Nat.eqb_neq in F. auto.
  - intros [(x & Hx & H) F]. pose proof H as H'. apply in_map_iff in H as (y & E & Hy). injection E as -> ->.
    exists u. split; auto. apply filter_In. split; auto. destruct freq; auto. now apply negb_true_iff, Nat.eqb_neq.
Qed.
Lemma in_pairs n outn u v : In (u, v) (pairs n outn) <-> u < n /\ In v (outn u).
Proof.
  unfold pairs. rewrite in_flat_map. split.
  - intros (x & Hx & H). apply in_map_iff in H as (y & E & Hy). injection E as -> ->. apply in_seq in Hx. split; auto. lia.
  - intros [A B]. exists u. split; [apply in_seq; lia|]. apply in_map_iff. eauto.
Qed.
Lemma pairs_ok n outn u v : undirected n outn -> In (u, v) (pairs n outn) -> u < n /\ v < n /\ In (v, u) (pairs n outn).
Proof. intros HU H. apply in_pairs in H as [A B]. destruct (HU _ _ A B). repeat (split; auto). apply in_pairs. auto. Qed.
(* every edge has ends of the same label: the labels join the components *)
Lemma labels_join n outn (R : nat -> nat) : undirected n outn -> (forall u v, In (u, v) (pairs n outn) -> R u = R v) ->
  forall x y, connected (pairs n outn) x y -> R x = R y.
Proof. intros _ H x y C. induction C; auto; congruence. Qed.
(* an edge is left out only when both ends carry the frequent label, or it is seen from the other end *)
Lemma seen_all n outn (P R : nat -> nat) freq : undirected n outn -> (forall x y, x < n -> y < n -> P x = P y -> R x = R y) ->
  (forall u v, In (u, v) (sv_edges n outn P freq) -> R u = R v) -> forall u v, In (u, v) (pairs n outn) -> R u = R v.
Proof.
  intros HU HC H u v Huv. destruct (pairs_ok HU Huv) as (Hu & Hv & Hvu). destruct freq as [f|].
  - destruct (Nat.eq_dec (P u) f) as [Eu|Eu].
    + destruct (Nat.eq_dec (P v) f) as [Ev|Ev]; [apply HC; congruence|]. symmetry. apply H. apply in_edges. auto.
    + apply H. apply in_edges. auto.
  - apply H. apply in_edges. auto.
Qed.

(* ---- Shiloach-Vishkin ---- *)
Definition cond (prev par : nat -> nat) (x : nat) (e : nat * nat) : Prop :=
  Nat.max (prev (fst e)) (prev (snd e)) = x /\ Nat.min (prev (fst e)) (prev (snd e)) = par x /\ par x <> x /\ prev x = x.
Lemma record_step prev par Ed e x : 
  sv_record prev par Ed e x = Ed x \/ (Ed x = None /\ sv_record prev par Ed e x = Some e /\ cond prev par x e).
Proof.
  unfold sv_record, cond. set (l := Nat.min _ _). set (h := Nat.max _ _).
  destruct (Nat.eqb_spec l h) as [E1|E1]; [now left|]. destruct (Nat.eqb_spec h (prev h)) as [E2|E2]; [|now left].
  destruct (Nat.eqb_spec (par h) l) as [E3|E3]; [|now left]. simpl. destruct (Ed h) eqn:Eh; [now left|].
  destruct (Nat.eq_dec x h) as [->|Hne]; [|left; now rewrite fset_other]. right. rewrite fset_same. repeat split; auto; congruence.
Qed.
Lemma record_hit prev par Ed e x : cond prev par x e -> sv_record prev par Ed e x <> None.
Proof.
  unfold sv_record, cond. intros (<- & E2 & E3 & E4). rewrite E2. set (h := Nat.max _ _) in *.
  destruct (Nat.eqb_spec (par h) h); [congruence|]. destruct (Nat.eqb_spec h (prev h)); [|congruence]. rewrite Nat.eqb_refl. simpl.
  destruct (Ed h) eqn:Eh; [congruence|]. rewrite fset_same. discriminate.
Qed.
Lemma records prev par es : forall Ed x, let Ed' := fold_left (sv_record prev par) es Ed in
  (Ed' x = Ed x \/ (Ed x = None /\ exists e, In e es /\ Ed' x = Some e /\ cond prev par x e)) /\
  ((exists e, In e es /\ cond prev par x e) -> Ed' x <> None).
Proof.
  induction es as [|e es IH]; intros Ed x; simpl.
  - split; auto. intros (e & [] & _).
  - destruct (IH (sv_record prev par Ed e) x) as [A B]. set (Ed' := fold_left _ _ _) in *. destruct (record_step prev par Ed e x) as [E1|(E1 & E2 & E3)].
    + rewrite E1 in A. split.
      * destruct A as [A|(A1 & e' & A2 & A3)]; auto. right. split; auto. exists e'. auto.
      * intros (e' & [<-|Hin] & Hc); [|apply B; eauto]. destruct A as [A|(_ & e' & _ & A & _)]; [|congruence].
        pose proof (@record_hit prev par Ed e x Hc). congruence.
    + rewrite E2 in A. destruct A as [A|(A & _)]; [|discriminate]. split.
      * right. split; auto. exists e. auto.
      * congruence.
Qed.

Section SVF.
  Variable n : nat.
  Variable outn : nat -> list nat.
  Variable freq : option nat.
  Variable par0 : nat -> nat.
  Variable Ed0 : nat -> option (nat * nat).
  Hypothesis HU : undirected n outn.
  Let G := pairs n outn.
  Let E := sv_edges n outn par0 freq.
  Hypothesis HF : flat n par0.
  Hypothesis HI : finv n G Ed0 par0.
  Lemma vn v : In v (seq 0 n) -> v < n. Proof. intros H. apply in_seq in H. lia. Qed.
  Lemma vE a b : In (a, b) E -> In a (seq 0 n) /\ In b (seq 0 n).
  Proof. intros H. apply in_edges in H as [H _]. apply (pairs_ok HU) in H as (A & B & _). split; apply in_seq; lia. Qed.
  Lemma v_out v : v < n -> ~ In v (seq 0 n) -> par0 v = v. Proof. intros H F. destruct F. apply in_seq. lia. Qed.
  Lemma v_in v : In v (seq 0 n) -> In (par0 v) (seq 0 n). Proof. intros H. apply vn in H. destruct (HF H). apply in_seq. lia. Qed.
  Lemma svf_sv par prev Ed par' prev' Ed' ch : svf_round n E par prev Ed par' prev' Ed' ch -> sv_round E (seq 0 n) par prev par' prev' ch.
  Proof. intros H. destruct H as [calls es sched HC HE par1 s F]. now apply sv_round_intro. Qed.
  Lemma svf_round_ok par prev Ed par' prev' Ed' ch : svinv n E (seq 0 n) par0 par prev -> finv n G Ed prev ->
    svf_round n E par prev Ed par' prev' Ed' ch -> finv n G Ed' prev'.
  Proof.
    intros SI FI H. destruct H as [calls es sched HC HE par1 s F].
    destruct (R_jump (seq_NoDup n 0) vn vE SI HC sched F) as [J1 J2]. fold par1 s in J1, J2.
    set (R := rootf (fun v => if prev v =? v then v else n) par1) in *.
    assert (HR : rooted n par1 R) by exact (R_rooted vn vE SI HC).
    assert (HH : hooked n G prev Ed par1 (fold_left (sv_record prev par1) es Ed)).
    { intros x Hx. destruct (records prev par1 es Ed x) as [A B]. set (Ed' := fold_left _ es Ed) in *.
      destruct (par1_cases vn vE SI HC Hx) as [C|(C1 & C2 & C3 & _)]; fold par1 in C || fold par1 in C2, C3.
      - left. split; auto. destruct A as [A|(_ & e & _ & _ & _ & _ & D1 & D2)]; auto. congruence.
      - right. repeat (split; auto). 
        assert (Hin : In (x, par1 x) calls).
        { destruct (min_writes_from calls par x) as [D|D]; auto. exfalso. fold par1 in D. rewrite (i_eq SI Hx) in D. lia. }
        destruct (call_in vn vE SI HC _ _ Hin) as (a & b & D1 & D2 & D3 & _ & _ & _ & _ & D4).
        assert (Hc : exists e, In e es /\ cond prev par1 x e).
        { exists (a, b). split; [eapply Permutation_in; [apply Permutation_sym; exact HE|auto]|]. unfold cond. simpl.
          destruct D4 as [[-> ->]|[-> ->]]; repeat split; auto; lia. }
        assert (Hn : Ed x = None) by (apply (f_root FI); auto).
        destruct A as [A|(_ & [u v] & A1 & A2 & A3 & A4 & A5 & A6)]; [exfalso; apply (B Hc); congruence|]. simpl in A3, A4.
        apply (Permutation_in _ HE) in A1. apply in_edges in A1 as [A1 _]. destruct (pairs_ok HU A1) as (Hu & Hv & _).
        exists u, v. repeat (split; auto). lia. }
    assert (FP : flat n prev) by exact (fun v Hv => i_flat SI Hv).
    destruct (round_ok FP FI HH HR) as (_ & F' & _). eapply finv_ext; [exact J2| |reflexivity|exact F']. intros x Hx. now apply (HR x Hx).
  Qed.
  Lemma svf_loop_ok k par prev Ed ch : svf_loop n outn freq par0 Ed0 k par prev Ed ch ->
    sv_loop E (seq 0 n) par0 par0 k par prev ch /\ finv n G Ed prev.
  Proof.
    intros H. induction H as [|k par prev Ed par' prev' Ed' ch H [IH1 IH2] HR]; [split; [constructor|auto]|].
    split; [eapply sv_next; [exact IH1|now apply (svf_sv HR)]|].
    destruct (sv_loop_ok (seq_NoDup n 0) vn vE HF v_out v_in IH1) as (SI & _). eapply svf_round_ok; eauto.
  Qed.
  Lemma svf_final k par prev Ed : svf_loop n outn freq par0 Ed0 k par prev Ed false ->
    k <= S n /\ finv n G Ed prev /\ flat n prev /\ (forall x, x < n -> par x = prev x) /\ forall u v, In (u, v) G -> prev u = prev v.
  Proof.
    intros H. destruct (svf_loop_ok H) as [L FI].
    destruct (sv_loop_ok (seq_NoDup n 0) vn vE HF v_out v_in L) as (SI & Hk & _ & HL). specialize (HL eq_refl).
    split; auto. split; auto. split; [exact (fun v Hv => i_flat SI Hv)|]. split; [exact (fun v Hv => i_eq SI Hv)|].
    apply (seen_all (P := par0) (freq := freq) HU); auto. intros x y Hx Hy Exy.
    rewrite <- (i_coarse SI Hx), <- (i_coarse SI Hy). congruence.
  Qed.
  Lemma svf_bound k par prev Ed ch : svf_loop n outn freq par0 Ed0 k par prev Ed ch -> k <= S n.
  Proof. intros H. destruct (svf_loop_ok H) as [L _]. now destruct (sv_loop_ok (seq_NoDup n 0) vn vE HF v_out v_in L) as (_ & Hk & _). Qed.
  Lemma svf_progress k par prev Ed : svf_loop n outn freq par0 Ed0 k par prev Ed true ->
    exists par' prev' Ed' ch, svf_loop n outn freq par0 Ed0 (S k) par' prev' Ed' ch.
  Proof.
    intros H. destruct (svf_loop_ok H) as [L _].
    destruct (sv_loop_ok (seq_NoDup n 0) vn vE HF v_out v_in L) as (SI & _).
    destruct (R_run (seq_NoDup n 0) vn vE SI (Permutation_refl _)) as [sched F].
    do 4 eexists. eapply svf_next; [exact H|]. eapply svf_round_intro; [apply Permutation_refl|apply Permutation_refl|exact F].
  Qed.
End SVF.

(* ---- Liu-Tarjan ---- *)
Section LTF.
  Variable largest n : nat.
  Variable outn : nat -> list nat.
  Variable c : sf_connect.
  Hypothesis HU : undirected n outn.
  Hypothesis Hl : n <= largest.
  Let G := pairs n outn.

  Lemma less_lt a b : a < n -> b < n -> lt_less largest a b = (a <? b).
  Proof. intros Ha Hb. unfold lt_less. destruct (Nat.eqb_spec a largest); [lia|]. destruct (Nat.eqb_spec b largest); [lia|auto]. Qed.
  Lemma greater_lt a b : a < n -> b < n -> lt_greater largest a b = (b <? a).
  Proof. intros Ha Hb. unfold lt_greater. destruct (Nat.eqb_spec a largest); [lia|]. destruct (Nat.eqb_spec b largest); [lia|auto]. Qed.
  Lemma min_min a b : a < n -> b < n -> lt_min largest a b = Nat.min a b.
  Proof. intros Ha Hb. unfold lt_min. destruct (Nat.eqb_spec a largest); [lia|]. destruct (Nat.eqb_spec b largest); [lia|auto]. Qed.
  Lemma max_max a b : a < n -> b < n -> lt_max largest a b = Nat.max a b.
  Proof. intros Ha Hb. unfold lt_max. destruct (Nat.eqb_spec a largest); [lia|]. destruct (Nat.eqb_spec b largest); [lia|auto]. Qed.

  (* the messages after some calls *)
  Definition calls_lt (calls : list (nat * message)) : Prop := forall x m, In (x, m) calls -> x < n /\ fst m < n.
  Lemma writes_ok calls : calls_lt calls -> forall msgs b msgs' ch, (forall x, x < n -> fst (msgs x) < n) ->
    fold_left (sf_write largest) calls (msgs, b) = (msgs', ch) ->
    (forall x, x < n -> fst (msgs' x) < n) /\
    (forall x, x < n -> fst (msgs' x) <= fst (msgs x)) /\
    (forall x, x < n -> msgs' x = msgs x \/ In (x, msgs' x) calls /\ fst (msgs' x) < fst (msgs x)) /\
    (forall x m, In (x, m) calls -> fst (msgs' x) <= fst m) /\
    (b = true -> ch = true) /\ (ch = true -> b = true \/ calls <> []) /\
    (ch = false -> forall x m, In (x, m) calls -> fst (msgs x) <= fst m).
  Proof.
    induction calls as [|[x0 m0] calls IH]; intros HC msgs b msgs' ch HM H; cbn [fold_left] in H.
    - injection H as <- <-. repeat (split; auto); easy.
    - destruct (HC x0 m0) as [Hx0 Hm0]; [now left|].
      assert (HC' : calls_lt calls) by (intros x m Hin; apply HC; now right).
      unfold sf_write at 2 in H. cbn [fst snd] in H. rewrite less_lt in H by auto. destruct (Nat.ltb_spec (fst m0) (fst (msgs x0))) as [L|L].
      + assert (HM' : forall x, x < n -> fst (fset msgs x0 m0 x) < n).
        { intros x Hx. destruct (Nat.eq_dec x x0) as [->|Hne]; [now rewrite fset_same|rewrite fset_other by auto; auto]. }
        destruct (IH HC' _ _ _ _ HM' H) as (A & B & C & D & F & K & J). specialize (F eq_refl). subst ch.
        split; auto. split; [|split; [|split; [|split; [|split]]]]; auto.
        * intros x Hx. specialize (B x Hx). destruct (Nat.eq_dec x x0) as [->|Hne]; [rewrite fset_same in B; lia|now rewrite fset_other in B].
        * intros x Hx. specialize (B x Hx). destruct (C x Hx) as [C'|[C1 C2]].
          -- destruct (Nat.eq_dec x x0) as [->|Hne]; [|rewrite fset_other in C' by auto; auto]. rewrite fset_same in C'. rewrite C'. right. split; auto. now left.
          -- right. split; [now right|]. destruct (Nat.eq_dec x x0) as [->|Hne]; [rewrite fset_same in C2; lia|now rewrite fset_other in C2].
        * intros x m [Hin|Hin]; [|auto]. injection Hin as <- <-. specialize (B x0 Hx0). now rewrite fset_same in B.
        * intros _. right. discriminate.
        * discriminate.
      + destruct (IH HC' _ _ _ _ HM H) as (A & B & C & D & F & K & J).
        split; auto. split; auto. split; [|split; [|split; [|split]]]; auto.
        * intros x Hx. destruct (C x Hx) as [C'|[C1 C2]]; auto. right. split; auto. now right.
        * intros x m [Hin|Hin]; [|auto]. injection Hin as <- <-. specialize (B x0 Hx0). lia.
        * intros Hc. right. discriminate.
        * intros Hc x m [Hin|Hin]; [|eauto]. injection Hin as <- <-. auto.
  Qed.

  Section Round.
    Variables (P : nat -> nat) (msgs : nat -> message) (Ed : nat -> option (nat * nat)) (freq : option nat).
    Hypothesis HF : flat n P.
    Hypothesis HI : finv n G Ed P.
    Hypothesis HM : forall x, x < n -> fst (msgs x) < n /\ (P x = x -> fst (msgs x) = x).
    Let E := sv_edges n outn P freq.
    Variable calls : list (nat * message).
    Hypothesis HC : Permutation calls (flat_map (sf_calls largest c P) E).
    Variable msgs' : nat -> message.
    Variable ch : bool.
    Hypothesis HW : fold_left (sf_write largest) calls (msgs, false) = (msgs', ch).
    Let P1 := sf_update largest n P msgs'.
    Let Ed1 := sf_update_edge largest n P msgs' Ed.
    Let m v := if P v =? v then v else n.

    Lemma lt_call x q : In (x, q) calls -> exists u v, In (u, v) G /\ u < n /\ v < n /\ snd q = Some (u, v) /\ x < n /\ fst q < n /\ P (fst q) = fst q /\ P u <> P v /\
      (P x = x -> fst q < x /\ ((P u = x /\ P v = fst q) \/ (P v = x /\ P u = fst q))).
    Proof.
      intros H. apply (Permutation_in _ HC) in H. apply in_flat_map in H as ([u v] & Huv & H).
      apply in_edges in Huv as [Huv _]. destruct (pairs_ok HU Huv) as (Hu & Hv & _). destruct (HF Hu) as [U1 U2]. destruct (HF Hv) as [V1 V2].
      exists u, v. repeat (split; [assumption|]). unfold sf_calls in H. cbn [fst snd] in H. destruct c.
      - rewrite min_min, max_max in H by auto. destruct (Nat.eqb_spec (Nat.min (P u) (P v)) (Nat.max (P u) (P v))) as [X|X]; [easy|].
        destruct H as [H|[]]. injection H as <- <-. cbn [fst snd]. split; auto. destruct (Nat.max_spec (P u) (P v)) as [[L1 L2]|[L1 L2]]; destruct (Nat.min_spec (P u) (P v)) as [[L3 L4]|[L3 L4]]; try lia; rewrite L2, L4; repeat (split; auto); lia.
      - rewrite less_lt, greater_lt in H by auto. destruct (Nat.ltb_spec (P v) (P u)) as [X|X]; [|destruct (Nat.ltb_spec (P u) (P v)) as [Y|Y]; [|easy]].
        + destruct H as [H|[H|[]]]; injection H as <- <-; cbn [fst snd]; repeat (split; auto); lia.
        + destruct H as [H|[H|[]]]; injection H as <- <-; cbn [fst snd]; repeat (split; auto); lia.
    Qed.
    (* an edge between two trees sends the smaller root to the larger one *)
    Lemma lt_sent u v : In (u, v) E -> P u <> P v -> exists q, In (Nat.max (P u) (P v), q) calls /\ fst q = Nat.min (P u) (P v).
    Proof.
      intros Huv Hne. pose proof Huv as H. apply in_edges in H as [H _]. destruct (pairs_ok HU H) as (Hu & Hv & _). destruct (HF Hu) as [U1 U2]. destruct (HF Hv) as [V1 V2].
      exists (Nat.min (P u) (P v), Some (u, v)). split; auto. apply (Permutation_in _ (Permutation_sym HC)). apply in_flat_map. exists (u, v). split; auto.
      unfold sf_calls. cbn [fst snd]. destruct c.
      - rewrite min_min, max_max by auto. destruct (Nat.eqb_spec (Nat.min (P u) (P v)) (Nat.max (P u) (P v))); [lia|now left].
      - rewrite less_lt, greater_lt by auto. destruct (Nat.ltb_spec (P v) (P u)) as [X|X]; [|destruct (Nat.ltb_spec (P u) (P v)) as [Y|Y]; [|lia]].
        + right. left. rewrite Nat.max_l, Nat.min_r by lia. auto.
        + left. rewrite Nat.max_r, Nat.min_l by lia. auto.
    Qed.
    Lemma lt_writes : (forall x, x < n -> fst (msgs' x) < n) /\
      (forall x, x < n -> msgs' x = msgs x \/ In (x, msgs' x) calls /\ fst (msgs' x) < fst (msgs x)) /\
      (forall x q, In (x, q) calls -> fst (msgs' x) <= fst q) /\ (ch = true -> calls <> []) /\
      (ch = false -> forall x q, In (x, q) calls -> fst (msgs x) <= fst q).
    Proof.
      assert (HL : calls_lt calls) by (intros x q Hin; destruct (lt_call Hin) as (u & v & D); tauto).
      destruct (writes_ok HL (fun x Hx => proj1 (HM Hx)) HW) as (A & B & C & D & _ & F & J). repeat (split; auto).
      intros Hc. destruct (F Hc) as [X|X]; [discriminate|auto].
    Qed.
    Lemma lt_hooked : hooked n G P Ed P1 Ed1.
    Proof.
      intros x Hx. destruct lt_writes as (A & B & _). assert (Hx' : x <? n = true) by now apply Nat.ltb_lt.
      assert (EP : P1 x = if x =? P x then Nat.min (P x) (fst (msgs' x)) else P x).
      { unfold P1, sf_update. rewrite Hx'. cbn [andb]. destruct (x =? P x); auto. apply min_min; auto. now apply HF. }
      assert (EE : Ed1 x = if (x =? P x) && negb (P x =? P1 x) then snd (msgs' x) else Ed x).
      { unfold Ed1, sf_update_edge. fold P1. now rewrite Hx'. }
      rewrite EE. destruct (Nat.eqb_spec x (P x)) as [Er|Er]; [|now left]. cbn [andb].
      destruct (HM Hx) as [M1 M2]. specialize (M2 (eq_sym Er)). rewrite <- Er in EP |- *. destruct (B x Hx) as [Em|[Hin Hlt]].
      - left. rewrite Em, M2, Nat.min_id in EP. rewrite EP, Nat.eqb_refl. auto.
      - destruct (lt_call Hin) as (u & v & D1 & D2 & D3 & D4 & D5 & D6 & D7 & _ & D8). destruct (D8 (eq_sym Er)) as [D9 D10].
        rewrite Nat.min_r in EP by lia. destruct (Nat.eqb_spec x (P1 x)) as [Z|Z]; [lia|]. right. rewrite EP.
        repeat (split; auto). exists u, v. auto.
    Qed.
    Lemma lt_P1_ranked : ranked n m P1.
    Proof.
      intros x Hx. destruct (HF Hx) as [F1 F2]. unfold m. destruct (lt_hooked Hx) as [[H _]|(H1 & H2 & H3 & _)].
      - rewrite H. split; auto. destruct (Nat.eqb_spec (P x) x) as [X|X]; [now left|]. right. rewrite F2, Nat.eqb_refl. auto.
      - split; [lia|]. right. rewrite H1, H3, !Nat.eqb_refl. auto.
    Qed.
    Let R := rootf m P1.
    Lemma lt_R_rooted : rooted n P1 R.
    Proof. apply rootf_rooted, lt_P1_ranked. Qed.
    Lemma lt_jump sched : jfinished (jexec largest sched (jstart (B1 true) P1 (seq 0 n))) ->
      forall x, x < n -> jpar (jexec largest sched (jstart (B1 true) P1 (seq 0 n))) x = R x.
    Proof.
      intros F x Hx. assert (J : jinv largest n m R true P1 (seq 0 n) (jexec largest sched (jstart (B1 true) P1 (seq 0 n)))).
      { apply jexec_inv; [apply seq_NoDup|]. apply jstart_inv; auto using lt_P1_ranked, lt_R_rooted. intros u Hu. apply in_seq in Hu. lia. }
      apply (jumped (eq_refl true) J F). apply in_seq. lia.
    Qed.
    Lemma lt_run : exists sched, jfinished (jexec largest sched (jstart (B1 true) P1 (seq 0 n))).
    Proof.
      eapply (@jsome_schedule largest n m R true P1 (seq 0 n)); [apply seq_NoDup|]. apply jstart_inv; auto using lt_P1_ranked, lt_R_rooted.
      intros u Hu. apply in_seq in Hu. lia.
    Qed.
    Lemma lt_R_ok : flat n R /\ finv n G Ed1 R /\ (forall x y, x < n -> y < n -> P x = P y -> R x = R y).
    Proof. exact (round_ok HF HI lt_hooked lt_R_rooted). Qed.
    Lemma lt_R_msgs x : x < n -> fst (msgs' x) < n /\ (R x = x -> fst (msgs' x) = x).
    Proof.
      intros Hx. destruct lt_writes as (A & B & _). split; auto. intros Er. apply (lt_R_rooted Hx) in Er.
      unfold P1, sf_update in Er. assert (Hx' : x <? n = true) by now apply Nat.ltb_lt. rewrite Hx' in Er. cbn [andb] in Er.
      destruct (Nat.eqb_spec x (P x)) as [E1|E1]; [|congruence]. rewrite min_min in Er by (auto; now apply HF).
      destruct (HM Hx) as [M1 M2]. specialize (M2 (eq_sym E1)). destruct (B x Hx) as [X|[X Y]]; [congruence|]. lia.
    Qed.
    Lemma lt_fewer : ch = true -> roots n R < roots n P.
    Proof.
      intros Hc. destruct lt_writes as (A & B & C & D & _). specialize (D Hc).
      assert (W : exists x q, In (x, q) calls).
      { clear -D. destruct calls as [|[x q] l]; [easy|]. exists x, q. now left. }
      destruct W as (x & q & Hin). apply (Permutation_in _ HC) in Hin. apply in_flat_map in Hin as ([u v] & Huv & Hin).
      pose proof Huv as HG. apply in_edges in HG as [HG _]. destruct (pairs_ok HU HG) as (Hu & Hv & _). destruct (HF Hu) as [U1 U2]. destruct (HF Hv) as [V1 V2].
      assert (Hne : P u <> P v).
      { intros He. unfold sf_calls in Hin. cbn [fst snd] in Hin. rewrite He in Hin. destruct c.
        - rewrite min_min, max_max, Nat.min_id, Nat.max_id, Nat.eqb_refl in Hin by auto. easy.
        - rewrite less_lt, greater_lt, Nat.ltb_irrefl in Hin by auto. easy. }
      destruct (lt_sent Huv Hne) as (q' & Hq & Hfq). specialize (C _ _ Hq). set (h := Nat.max (P u) (P v)) in *.
      assert (Hh : h < n) by (unfold h; lia). assert (Ph : P h = h) by (unfold h; destruct (Nat.max_spec (P u) (P v)) as [[_ ->]|[_ ->]]; auto).
      apply (@filter_lt_len _ _ _ h).
      - intros y Hy Hr. apply in_seq in Hy. apply Nat.eqb_eq in Hr. apply Nat.eqb_eq. apply (lt_R_rooted (x := y)) in Hr; [|lia].
        destruct (lt_hooked (x := y)) as [[X _]|(X & _)]; [lia|congruence|auto].
      - apply in_seq. lia.
      - now apply Nat.eqb_eq.
      - apply Nat.eqb_neq. intros Y. destruct (lt_R_msgs Hh) as [_ X]. specialize (X Y). unfold h in *. lia.
    Qed.
    Lemma lt_stable : ch = false -> forall u v, In (u, v) G -> R u = R v.
    Proof.
      intros Hc. apply (@seen_all n outn P R freq HU); [apply lt_R_ok|]. intros u v Huv.
      pose proof Huv as HG. apply in_edges in HG as [HG _]. destruct (pairs_ok HU HG) as (Hu & Hv & _). destruct (HF Hu) as [U1 U2]. destruct (HF Hv) as [V1 V2].
      destruct (Nat.eq_dec (P u) (P v)) as [Ee|Ne]; [now apply lt_R_ok|]. exfalso.
      destruct (lt_sent Huv Ne) as (q & Hq & Hfq). destruct lt_writes as (_ & _ & _ & _ & D). specialize (D Hc _ _ Hq).
      assert (Ph : P (Nat.max (P u) (P v)) = Nat.max (P u) (P v)) by (destruct (Nat.max_spec (P u) (P v)) as [[_ ->]|[_ ->]]; auto).
      assert (Hh : Nat.max (P u) (P v) < n) by lia. rewrite (proj2 (HM Hh) Ph) in D. lia.
    Qed.
  End Round.

  Variable freq : option nat.
  Variable P0 : nat -> nat.
  Variable Ed0 : nat -> option (nat * nat).
  Hypothesis HF : flat n P0.
  Hypothesis HI : finv n G Ed0 P0.
  Lemma roots_le P : roots n P <= n.
  Proof. unfold roots. etransitivity; [apply filter_len_le|]. now rewrite seq_length. Qed.
  Lemma ltf_loop_ok k P msgs Ed ch : ltf_loop largest n outn c true freq P0 Ed0 k P msgs Ed ch ->
    flat n P /\ finv n G Ed P /\ (forall x, x < n -> fst (msgs x) < n /\ (P x = x -> fst (msgs x) = x)) /\
    k <= S n /\ (ch = true -> roots n P + k <= n) /\ (ch = false -> forall u v, In (u, v) G -> P u = P v).
  Proof.
    intros H. induction H as [|k P msgs Ed P' msgs' Ed' ch H IH HR].
    - split; auto. split; auto. split; [auto|]. split; [lia|]. split; [|discriminate]. intros _. rewrite Nat.add_0_r. apply roots_le.
    - destruct IH as (I1 & I2 & I3 & I4 & I5 & _). specialize (I5 eq_refl). destruct HR as [calls sched msgs' ch HC HW s F].
      pose proof (lt_jump Ed I1 I3 HC HW F) as J. fold s in J.
      destruct (lt_R_ok I1 I2 I3 HC HW) as (R1 & R2 & R3). set (R := rootf _ _) in J, R1, R2, R3.
      assert (Hlt : forall x, x < n -> R x < n) by (intros x Hx; now apply R1).
      split; [|split; [|split; [|split; [|split]]]].
      + intros x Hx. rewrite !J by (rewrite ?J; auto). auto.
      + eapply finv_ext; [exact J|exact Hlt|reflexivity|exact R2].
      + intros x Hx. rewrite J by auto. now apply (lt_R_msgs Ed I1 I3 HC HW).
      + lia.
      + intros Hc. pose proof (lt_fewer Ed I1 I3 HC HW Hc) as X. rewrite (@roots_ext n (jpar s) _ J). fold R in X. lia.
      + intros Hc u v Huv. destruct (pairs_ok HU Huv) as (Hu & Hv & _). rewrite !J by auto. now apply (lt_stable I1 I2 I3 HC HW Hc).
  Qed.
  Lemma ltf_progress k P msgs Ed : ltf_loop largest n outn c true freq P0 Ed0 k P msgs Ed true ->
    exists P' msgs' Ed' ch, ltf_loop largest n outn c true freq P0 Ed0 (S k) P' msgs' Ed' ch.
  Proof.
    intros H. destruct (ltf_loop_ok H) as (I1 & I2 & I3 & _).
    destruct (fold_left (sf_write largest) (flat_map (sf_calls largest c P) (sv_edges n outn P freq)) (msgs, false)) as [msgs' ch] eqn:HW.
    destruct (lt_run Ed I1 I3 (Permutation_refl _) HW) as [sched F].
    do 4 eexists. eapply ltf_next; [exact H|]. eapply ltf_round_intro; [apply Permutation_refl|exact HW|exact F].
  Qed.
End LTF.
