(* Proofs for C59: one traversal, and the two loops. *)
From Coq Require Import ZArith QArith Qcanon Permutation.
From Verif Require Import Base ListUtil BKSpec BKProofs FASpec FAProofs EMSpec BCModel BCSpec BCWalks BCProofs.
Local Open Scope nat_scope.

(* -- the calls, on finite values --------------------------------------------------------------- *)
Definition qcall (st : (nat -> Qc) * list nat) (e : nat * nat) : (nat -> Qc) * list nat :=
  let '(f, o) := st in (fset f (snd e) (f (snd e) + f (fst e))%Qc, if Qc_eq_dec (f (snd e)) 0 then snd e :: o else o).
Lemma calls_finite es : forall X f o, (forall v, X v = Some (f v)) ->
  (forall v, fst (fold_left bc_call es (X, o)) v = Some (fst (fold_left qcall es (f, o)) v)) /\
  snd (fold_left bc_call es (X, o)) = snd (fold_left qcall es (f, o)).
Proof.
  induction es as [|e es IH]; intros X f o H; [split; auto|]. cbn [fold_left bc_call qcall].
  assert (E : is0 (X (snd e)) = if Qc_eq_dec (f (snd e)) 0 then true else false) by (rewrite H; reflexivity). rewrite E.
  assert (Y : forall v, fset X (snd e) (nadd (X (snd e)) (X (fst e))) v = Some (fset f (snd e) (f (snd e) + f (fst e))%Qc v)).
  { intros v. unfold fset. destruct (_ =? _); auto. rewrite !H. reflexivity. }
  destruct (Qc_eq_dec (f (snd e)) 0); apply IH; exact Y.
Qed.
Lemma calls_value (V : nat -> bool) es : forall f o, (forall e, In e es -> V (fst e) = true /\ V (snd e) = false) ->
  forall v, fst (fold_left qcall es (f, o)) v = (f v + qsum (map (fun e => f (fst e)) (filter (fun e => (snd e =? v)) es)))%Qc.
Proof.
  induction es as [|e es IH]; intros f o H v; [simpl; ring|]. cbn [fold_left qcall]. rewrite IH by (intros x Hx; apply H; now right).
  destruct (H e (or_introl eq_refl)) as [He1 He2].
  rewrite (map_ext_in _ (fun x => f (fst x))).
  - cbn [filter]. unfold fset. rewrite (Nat.eqb_sym (snd e) v). destruct (Nat.eqb_spec v (snd e)) as [->|Hne]; simpl; ring.
  - intros x Hx. apply filter_In in Hx as [Hx _]. destruct (H x (or_intror Hx)) as [Hx1 _]. apply fset_other. intros E. rewrite E in Hx1. congruence.
Qed.
Lemma calls_out (V : nat -> bool) n es : forall f o,
  (forall e, In e es -> V (fst e) = true /\ (V (snd e) = false /\ snd e < n) /\ (0 < f (fst e))%Qc) ->
  (forall v, (0 <= f v)%Qc) -> NoDup o -> (forall d, V d = false -> d < n -> (In d o <-> f d <> 0%Qc)) -> (forall d, In d o -> V d = false) ->
  NoDup (snd (fold_left qcall es (f, o))) /\
  forall d, In d (snd (fold_left qcall es (f, o))) <-> In d o \/ exists s, In (s, d) es.
Proof.
  induction es as [|e es IH]; intros f o H Hnn ND Ho Hv.
  - split; auto. intros d. simpl. split; auto. intros [?|[? []]]; auto.
  - cbn [fold_left qcall]. destruct (H e (or_introl eq_refl)) as (He1 & (He2 & Hen) & He3).
    assert (Hpos : (0 < f (snd e) + f (fst e))%Qc) by (apply Qc_pos_add; auto).
    set (f1 := fset f (snd e) (f (snd e) + f (fst e))%Qc). set (o1 := if Qc_eq_dec (f (snd e)) 0 then snd e :: o else o).
    assert (Hin1 : forall d, In d o1 <-> In d o \/ d = snd e).
    { intros d. unfold o1. destruct (Qc_eq_dec (f (snd e)) 0) as [E|E]; simpl.
      - split; [intros [<-|?]; auto|intros [?| ->]; auto].
      - split; auto. intros [?| ->]; auto. apply Ho; auto. }
    destruct (IH f1 o1) as [A B].
    + intros x Hx. destruct (H x (or_intror Hx)) as (X1 & X2 & X3). split; auto. split; auto. unfold f1. rewrite fset_other; auto. intros E. rewrite E in X1. congruence.
    + intros v. unfold f1, fset. destruct (_ =? _); auto. now apply Qclt_le_weak.
    + unfold o1. destruct (Qc_eq_dec (f (snd e)) 0) as [E|E]; auto. constructor; auto. intros X. apply Ho in X; auto.
    + intros d Hd Hdn. rewrite Hin1. unfold f1, fset. destruct (Nat.eqb_spec d (snd e)) as [->|Hne].
      * split; auto. intros _. now apply Qc_neq.
      * rewrite (Ho d Hd Hdn). split; [intros [?|?]; congruence|auto].
    + intros d Hd. apply Hin1 in Hd as [Hd| ->]; auto.
    + split; auto. intros d. rewrite B, Hin1. split.
      * intros [[?| ->]|[s Hs]]; auto; right; [exists (fst e); left; now destruct e|exists s; now right].
      * intros [?|[s [E|Hs]]]; auto; [left; right; now rewrite E|right; eauto].
Qed.
Lemma calls_nn es : forall f o, (forall v, (0 <= f v)%Qc) -> forall v, (0 <= fst (fold_left qcall es (f, o)) v)%Qc.
Proof.
  induction es as [|e es IH]; intros f o H v; simpl; auto. apply IH. intros x. unfold fset. destruct (_ =? _); auto. now apply Qc_nn_add.
Qed.
Lemma qsum_map_perm {A} (f : A -> Qc) l1 l2 : Permutation l1 l2 -> qsum (map f l1) = qsum (map f l2).
Proof. intros H. now apply qsum_perm, Permutation_map. Qed.

Lemma reversed_sym n outn inn : reversed n outn inn -> reversed n inn outn.
Proof. intros (A & B & C). split; [|split]; eauto. intros u v Hu Hv. symmetry. auto. Qed.

(* -- one traversal ----------------------------------------------------------------------------- *)
Section Step.
  Variable n m : nat.
  Variable nbr rnbr : nat -> list nat.
  Hypothesis HR : reversed n nbr rnbr.
  Lemma edge_rev s d : s < n -> d < n -> (In d (nbr s) <-> In s (rnbr d)).
  Proof.
    intros Hs Hd. destruct HR as (_ & _ & HC). specialize (HC s d Hs Hd).
    rewrite (count_occ_In Nat.eq_dec), (count_occ_In Nat.eq_dec (rnbr d) s). lia.
  Qed.
  Lemma edges_in w F s d : (forall x, In x F -> x < n) -> (In (s, d) (bc_edges n w nbr rnbr F) <-> In s F /\ d < n /\ In s (rnbr d)).
  Proof.
    intros HF. assert (Hsp : In (s, d) (flat_map (fun s => map (fun d => (s, d)) (nbr s)) F) <-> In s F /\ d < n /\ In s (rnbr d)).
    { rewrite in_flat_map. split.
      - intros (x & Hx & Hin). apply in_map_iff in Hin as (y & E & Hy). injection E as -> ->. pose proof (HF s Hx) as Hs.
        assert (d < n) by (destruct HR as (X & _); eauto). split; auto. split; auto. now apply edge_rev.
      - intros (Hs & Hd & Hin). exists s. split; auto. apply in_map_iff. exists d. split; auto. apply edge_rev; auto. }
    destruct w; auto. simpl. rewrite in_flat_map. split.
    - intros (x & Hx & Hin). apply in_map_iff in Hin as (y & E & Hy). injection E as -> ->. apply filter_In in Hy as [H1 H2]. apply mem_In in H2. apply in_seq in Hx. split; auto. split; auto. lia.
    - intros (Hs & Hd & Hin). exists d. split; [apply in_seq; lia|]. apply in_map_iff. exists s. split; auto. apply filter_In. split; auto. now apply mem_In.
  Qed.
  Lemma count_filter_mem F l x : count_occ Nat.eq_dec (filter (fun s => mem s F) l) x = if mem x F then count_occ Nat.eq_dec l x else 0.
  Proof.
    induction l as [|a l IH]; simpl; [now destruct (mem x F)|]. destruct (mem a F) eqn:E; simpl; destruct (Nat.eq_dec a x) as [->|]; rewrite ?IH, ?E; auto.
  Qed.
  Lemma count_from a d l x : count_occ Nat.eq_dec (map fst (filter (fun e => snd e =? d) (map (fun d => (a, d)) l))) x = if Nat.eq_dec a x then count_occ Nat.eq_dec l d else 0.
  Proof.
    induction l as [|b l IH]; simpl; [now destruct (Nat.eq_dec a x)|]. destruct (Nat.eqb_spec b d) as [->|Hne]; simpl.
    - destruct (Nat.eq_dec d d) as [_|]; [|congruence]. destruct (Nat.eq_dec a x); auto.
    - rewrite IH. destruct (Nat.eq_dec b d); [congruence|auto].
  Qed.
  Lemma edges_sum w F (f : nat -> Qc) d : (forall x, In x F -> x < n) -> NoDup F -> d < n ->
    qsum (map (fun e => f (fst e)) (filter (fun e => snd e =? d) (bc_edges n w nbr rnbr F))) = qsum (map f (filter (fun s => mem s F) (rnbr d))).
  Proof.
    intros HF ND Hd. rewrite <- (map_map fst f). apply qsum_map_perm.
    assert (Hsp : Permutation (map fst (filter (fun e => snd e =? d) (flat_map (fun s => map (fun d => (s, d)) (nbr s)) F))) (filter (fun s => mem s F) (rnbr d))).
    { apply (Permutation_count_occ Nat.eq_dec). intros x. rewrite count_filter_mem.
      transitivity (if mem x F then count_occ Nat.eq_dec (nbr x) d else 0).
      - clear HF. induction ND as [|a F Ha ND IH]; auto. cbn [flat_map]. rewrite filter_app, map_app, count_occ_app, IH, count_from.
        change (mem x (a :: F)) with (existsb (Nat.eqb x) (a :: F)). cbn [existsb]. change (existsb (Nat.eqb x) F) with (mem x F).
        destruct (Nat.eq_dec a x) as [->|Hne].
        + rewrite Nat.eqb_refl. simpl. destruct (mem x F) eqn:E; [apply mem_In in E; contradiction|lia].
        + assert (E : (x =? a) = false) by (apply Nat.eqb_neq; auto). rewrite E. simpl. auto.
      - destruct (mem x F) eqn:E; auto. apply mem_In in E. destruct HR as (_ & _ & HC). auto. }
    destruct w; auto. simpl.
    assert (X : forall l, NoDup l -> map fst (filter (fun e => snd e =? d) (flat_map (fun d => map (fun s => (s, d)) (filter (fun s => mem s F) (rnbr d))) l)) =
       if mem d l then filter (fun s => mem s F) (rnbr d) else []).
    { intros l NDl. induction NDl as [|a l Ha NDl IH]; auto. cbn [flat_map]. rewrite filter_app, map_app, IH.
      change (mem d (a :: l)) with (existsb (Nat.eqb d) (a :: l)). cbn [existsb]. change (existsb (Nat.eqb d) l) with (mem d l).
      destruct (Nat.eqb_spec d a) as [->|Hne]; simpl.
      - assert (E : mem a l = false) by (destruct (mem a l) eqn:E; auto; apply mem_In in E; contradiction). rewrite E, app_nil_r, filter_all.
        + rewrite map_map. simpl. apply map_id.
        + intros e He. apply in_map_iff in He as (s & <- & _). apply Nat.eqb_refl.
      - rewrite filter_none; auto. intros e He. apply in_map_iff in He as (s & <- & _). simpl. apply Nat.eqb_neq. auto. }
    rewrite X by apply seq_NoDup. destruct (mem d (seq 0 n)) eqn:E; auto. exfalso. assert (Y : In d (seq 0 n)) by (apply in_seq; lia). apply mem_In in Y. congruence.
  Qed.

  Variable V : nat -> bool.
  Variable F : frontier.
  Variable X : nat -> num.
  Variable f : nat -> Qc.
  Hypothesis HX : forall v, X v = Some (f v).
  Hypothesis Hnn : forall v, (0 <= f v)%Qc.
  Hypothesis HF : forall v, In v (fv F) -> v < n /\ V v = true /\ (0 < f v)%Qc.
  Hypothesis NDF : NoDup (fv F).
  Variable R : nat -> Prop.         (* the vertices of interest *)
  Hypothesis Hzero : forall d, d < n -> R d -> V d = false -> f d = 0%Qc /\ forall s, In s (rnbr d) -> In s (fv F) \/ f s = 0%Qc.
  Hypothesis Hsome : fst (em_way n m (fun v => length (nbr v)) F) = WNone -> forall d s, d < n -> R d -> V d = false -> In s (rnbr d) -> ~ In s (fv F).
  Definition inflow (d : nat) : Qc := qsum (map f (filter (fun s => mem s (fv F)) (rnbr d))).
  Lemma nsum_finite l : nsum (map X l) = Some (qsum (map f l)).
  Proof. induction l as [|a l IH]; simpl; auto. rewrite IH, HX. reflexivity. Qed.
  Lemma inflow_all d : d < n -> R d -> V d = false -> qsum (map f (rnbr d)) = inflow d.
  Proof.
    intros Hd HRd Hv. symmetry. apply qsum_filter. intros s Hs E. destruct (Hzero Hd HRd Hv) as [_ H]. destruct (H s Hs) as [Hin|]; auto. apply mem_In in Hin. congruence.
  Qed.
  Lemma inflow_pos d s : In s (rnbr d) -> In s (fv F) -> (0 < inflow d)%Qc.
  Proof.
    intros Hs Hin. unfold inflow. assert (Hf : In s (filter (fun s => mem s (fv F)) (rnbr d))) by (apply filter_In; split; auto; now apply mem_In).
    revert Hf. generalize (filter (fun s => mem s (fv F)) (rnbr d)). intros l Hf. induction l as [|a l IH]; [destruct Hf|]. simpl. destruct Hf as [->|Hf].
    - rewrite Qcplus_comm. apply Qc_pos_add; [apply qsum_nn; auto|]. now apply HF.
    - apply Qc_pos_add; auto.
  Qed.
  Lemma step_ok fa X' F' out : bc_step n m fa nbr rnbr V F X X' F' out ->
    exists f', (forall v, X' v = Some (f' v)) /\ (forall v, (0 <= f' v)%Qc) /\ (forall d, d < n -> V d = true -> f' d = f d) /\
      (forall d, d < n -> R d -> V d = false -> f' d = inflow d) /\
      ((forall d, R d) -> NoDup (fv out) /\ forall d, In d (fv out) <-> d < n /\ V d = false /\ exists s, In s (fv F) /\ In s (rnbr d)) /\
      fdeg out = None /\ fv F' = fv F /\
      (F' = F /\ (fa = true \/ fdense F = true /\ n / 10 < length (fv F)) \/ F' = snd (em_way n m (fun v => length (nbr v)) F)).
  Proof.
    assert (HFn : forall x, In x (fv F) -> x < n) by (intros x Hx; now apply HF).
    assert (Hway : forall w F1, em_way n m (fun v => length (nbr v)) F = (w, F1) -> fv F1 = fv F).
    { intros w F1. unfold em_way. destruct (length (fv F) =? 0); [intros E; now injection E as _ <-|]. destruct (fdense F && _); [intros E; now injection E as _ <-|].
      destruct (match fdeg F with Some d => d | None => _ end =? 0); [intros E; now injection E as _ <-|]. destruct (m / 20 <? _); intros E; now injection E as _ <-. }
    intros H. destruct H as [X' F' out H|Hfa Hne].
    - destruct H as [F' E|w F' es out E Hw Hes r Ho].
      + exists f. rewrite E in Hsome. specialize (Hsome eq_refl). split; auto. split; auto. split; auto.
        assert (Hi : forall d, d < n -> R d -> V d = false -> filter (fun s => mem s (fv F)) (rnbr d) = []).
        { intros d Hd HRd Hv. apply filter_none. intros s Hs. destruct (mem s (fv F)) eqn:Em; auto. apply mem_In in Em. exfalso. eapply Hsome; eauto. }
        split; [|split; [|split; [|split]]]; auto.
        * intros d Hd HRd Hv. unfold inflow. rewrite Hi; auto. simpl. now apply Hzero.
        * intros HRa. split; [constructor|]. intros d. simpl. split; [intros []|]. intros (Hd & Hv & s & Hs & Hin). exfalso; eapply Hsome; eauto.
        * eapply Hway; eauto.
        * right. now rewrite E.
      + set (es0 := filter (fun e => negb (V (snd e))) (bc_edges n w nbr rnbr (fv F))) in *.
        assert (Hes0 : forall e, In e es <-> In (fst e) (fv F) /\ snd e < n /\ In (fst e) (rnbr (snd e)) /\ V (snd e) = false).
        { intros [s d]. rewrite (Permutation_in' eq_refl Hes). unfold es0. rewrite filter_In, edges_in, Bool.negb_true_iff; auto. simpl. tauto. }
        destruct (@calls_finite es X f [] HX) as [C1 C2]. subst r.
        assert (Hval := calls_value V es f [] (fun e He => conj (proj1 (proj2 (HF (fst e) (proj1 (proj1 (Hes0 e) He))))) (proj2 (proj2 (proj2 (proj1 (Hes0 e) He)))))).
        assert (Hflow : forall d, d < n -> V d = false -> fst (fold_left qcall es (f, [])) d = (f d + inflow d)%Qc).
        { intros d Hd Hv. rewrite Hval. f_equal. unfold inflow. rewrite <- (edges_sum w f) by auto. apply qsum_map_perm.
          etransitivity; [apply perm_filter; exact Hes|]. unfold es0. replace (filter (fun e => snd e =? d) (filter (fun e => negb (V (snd e))) (bc_edges n w nbr rnbr (fv F)))) with (filter (fun e => snd e =? d) (bc_edges n w nbr rnbr (fv F))); auto.
          clear -Hv. induction (bc_edges n w nbr rnbr (fv F)) as [|e l IH]; auto. simpl. destruct (Nat.eqb_spec (snd e) d) as [E|E].
          - rewrite E, Hv. simpl. rewrite E, Nat.eqb_refl. f_equal. auto.
          - destruct (V (snd e)); simpl; auto. apply Nat.eqb_neq in E. rewrite E. auto. }
        exists (fst (fold_left qcall es (f, []))). split; auto. split; [now apply calls_nn|]. split; [|split; [|split; [|split; [|split]]]]; auto.
        * intros d Hd Hv. rewrite Hval, filter_none; [simpl; ring|]. intros e He. apply Hes0 in He as (_ & _ & _ & He). apply Nat.eqb_neq. intros E'. rewrite E' in He. congruence.
        * intros d Hd HRd Hv. rewrite Hflow by auto. destruct (Hzero Hd HRd Hv) as [-> _]. ring.
        * intros HRa. destruct (@calls_out V n es f []) as [O1 O2]; auto.
          -- intros e He. apply Hes0 in He as (A & B & C & D). destruct (HF _ A) as (_ & P & Q). auto.
          -- constructor.
          -- intros d Hv Hd. destruct (Hzero Hd (HRa d) Hv) as [-> _]. split; [intros []|congruence].
          -- intros d [].
          -- rewrite <- C2 in O1, O2. split; [now apply (Permutation_NoDup (Permutation_sym Ho))|]. intros d. cbn [fv fresh].
             rewrite (Permutation_in' eq_refl Ho), O2. split.
             ++ intros [[]|[s Hs]]. apply Hes0 in Hs as (A & B & C & D). simpl in *. eauto.
             ++ intros (Hd & Hv & s & A & B). right. exists s. apply Hes0. auto.
        * eapply Hway; eauto.
        * right. now rewrite E.
    - set (hit := fun u => (u <? n) && negb (V u) && is_pos (nsum (map X (rnbr u)))).
      assert (Hhit : forall u, hit u = true <-> u < n /\ V u = false /\ (0 < qsum (map f (rnbr u)))%Qc).
      { intros u. unfold hit. rewrite !Bool.andb_true_iff, Nat.ltb_lt, Bool.negb_true_iff, nsum_finite. unfold is_pos.
        destruct (Qclt_le_dec 0 (qsum (map f (rnbr u)))) as [L|L]; [tauto|]. split; [intros [_ ?]; discriminate|]. intros (_ & _ & L'). apply Qclt_not_le in L'. contradiction. }
      exists (fun u => if hit u then qsum (map f (rnbr u)) else f u). split; [|split; [|split; [|split; [|split; [|split; [|split]]]]]]; auto.
      + intros v. simpl. fold (hit v). destruct (hit v); auto. apply nsum_finite.
      + intros v. destruct (hit v); auto. apply qsum_nn. auto.
      + intros d Hd Hv. destruct (hit d) eqn:E; auto. apply Hhit in E as (_ & E & _). congruence.
      + intros d Hd HRd Hv. destruct (hit d) eqn:E; [now apply inflow_all|]. destruct (Hzero Hd HRd Hv) as [-> _].
        rewrite <- (inflow_all Hd HRd Hv). assert (L : (0 <= qsum (map f (rnbr d)))%Qc) by (apply qsum_nn; auto). apply Qcle_lt_or_eq in L as [L|L]; auto.
        exfalso. assert (hit d = true) by (apply Hhit; auto). congruence.
      + intros HRa. simpl. split; [apply NoDup_filter, seq_NoDup|]. intros d. rewrite filter_In, in_seq. fold (hit d). rewrite Hhit. split.
        * intros (_ & Hd & Hv & L). split; auto. split; auto. rewrite (inflow_all Hd (HRa d) Hv) in L. unfold inflow in L.
          destruct (filter (fun s => mem s (fv F)) (rnbr d)) as [|s l] eqn:E; [exfalso; now apply Qclt_not_eq in L|].
          assert (Y : In s (filter (fun s => mem s (fv F)) (rnbr d))) by (rewrite E; now left). apply filter_In in Y as [Y1 Y2]. apply mem_In in Y2. eauto.
        * intros (Hd & Hv & s & A & B). split; [lia|]. split; auto. split; auto. rewrite (inflow_all Hd (HRa d) Hv). eapply inflow_pos; eauto.
  Qed.
End Step.

Lemma Qcinv_pos x : (0 < x)%Qc -> (0 < / x)%Qc.
Proof. unfold Qclt, Qcinv, Q2Qc. cbn [this]. intros H. rewrite !Qred_correct. apply Qinv_lt_0_compat. exact H. Qed.
Lemma Qc_div_nn a b : 0 < b -> (0 <= qc a / qc b)%Qc.
Proof.
  intros Hb. unfold Qcdiv. replace 0%Qc with (0 * / qc b)%Qc by ring. apply Qcmult_le_compat_r; [|now apply Qclt_le_weak, Qcinv_pos, qc_pos].
  destruct a; [apply Qcle_refl|]. apply Qclt_le_weak, qc_pos. lia.
Qed.

Section Levels.
  Variable n : nat.
  Variable outn inn : nat -> list nat.
  Hypothesis HR : reversed n outn inn.
  Variable src : nat.
  Hypothesis Hsrc : src < n.
  Notation lev := (level n outn src).
  Notation sig := (sig n outn src).
  Notation dep := (dep n outn src).
  Lemma in_edge u v : v < n -> In u (inn v) -> u < n /\ In v (outn u).
  Proof. intros Hv H. assert (Hu : u < n) by (destruct HR as (_ & X & _); exact (X u v Hv H)). split; auto. now apply (edge_rev HR). Qed.
  Lemma lev_src : lev src = Some 0.
  Proof. apply (lev_dist HR); auto. split; [constructor|]. intros; lia. Qed.
  Lemma lev_0 v : lev v = Some 0 -> v = src.
  Proof. intros H. apply (lev_dist HR) in H as [H _]; auto. now inversion H. Qed.
  Lemma lev_prev v k : lev v = Some (S k) -> exists u, lev u = Some k /\ In v (outn u).
  Proof. intros H. apply (lev_dist HR) in H; auto. destruct (dist_prev H) as (u & Hu & Hv). exists u. split; auto. now apply (lev_dist HR). Qed.
  Lemma lev_bound v k : lev v = Some k -> k < n.
  Proof. intros H. apply (lev_dist HR) in H; auto. eapply dist_small; eauto. apply HR. Qed.
  Lemma lev_down v j k : lev v = Some j -> k <= j -> exists u, lev u = Some k.
  Proof.
    intros H Hk. revert v H. induction j; intros v H; [replace k with 0 by lia; eauto|].
    destruct (Nat.eq_dec k (S j)) as [->|]; eauto. apply lev_prev in H as (u & Hu & _). apply (IHj ltac:(lia) u Hu).
  Qed.
  Lemma sig_none v : lev v = None -> sig v = 0.
  Proof. intros H. unfold BCProofs.sig. now rewrite H. Qed.
  Lemma sig_src : sig src = 1.
  Proof. unfold BCProofs.sig. rewrite lev_src, W_0, Nat.eqb_refl. auto. Qed.
  Lemma g_nn v t : (0 <= g n outn src v t)%Qc.
  Proof.
    unfold g. destruct (lev v); [|apply Qcle_refl]. destruct (lev t) eqn:E; [|apply Qcle_refl]. destruct (_ <=? _); [|apply Qcle_refl].
    apply Qc_div_nn. eapply sig_pos; eauto.
  Qed.
  Lemma dep_pos v k : lev v = Some k -> (0 < dep v)%Qc.
  Proof.
    intros H. rewrite (dep_step HR Hsrc _ H). rewrite Qcplus_comm. apply Qc_pos_add; [|apply Qcinv_pos, qc_pos; eapply sig_pos; eauto].
    apply qsum_nn. intros w _. apply qsum_nn. intros t _. apply g_nn.
  Qed.
  (* what the score of a vertex comes to *)
  Lemma score_ok P D v : v < n -> P v = Some (qc (sig v)) -> (lev v <> None -> D v = Some (dep v)) ->
    scores (inverted P) D v = match lev v with Some _ => Some (dependency n outn src v) | None => None end.
  Proof.
    intros Hv HP HD. unfold scores, inverted. rewrite HP. destruct (lev v) as [i|] eqn:El.
    - pose proof (sig_pos HR Hsrc _ El) as Hp. pose proof (Qc_neq (qc_pos Hp)) as Hq. unfold ndiv at 2, ndiv at 2. unfold is0 at 1 2. destruct (Qc_eq_dec (qc (sig v)) 0); [contradiction|].
      rewrite HD by congruence. simpl. unfold ndiv. simpl. destruct (Qc_eq_dec (1 / qc (sig v)) 0) as [E|E].
      + exfalso. apply Hq. transitivity (qc (sig v) * qc (sig v) * (1 / qc (sig v)))%Qc; [field; auto|]. rewrite E. ring.
      + f_equal. rewrite <- (dep_final HR Hsrc _ El). field; repeat split; auto; discriminate.
    - rewrite (sig_none _ El). unfold ndiv. simpl. destruct (D v); reflexivity.
  Qed.
End Levels.
