(* Theorems for C59: betweenness centrality from one source. *)
From Coq Require Import ZArith QArith Qcanon Permutation.
From Verif Require Import Base ListUtil BKSpec BKProofs FASpec FAProofs EMSpec BCModel BCSpec BCWalks BCProofs BCLoops BCFinal.
Local Open Scope nat_scope.

Section Main.
  Variable n m : nat.
  Variable outn inn : nat -> list nat.
  Hypothesis HR : reversed n outn inn.
  Variable src : nat.
  Hypothesis Hsrc : src < n.
  Notation lev := (level n outn src).
  Notation is_level := (is_level n outn src).

  Fixpoint levels_ok (Ls : list (list nat)) : Prop :=
    match Ls with [] => True | F :: rest => is_level (length rest) F /\ F <> [] /\ levels_ok rest end.
  Lemma level_small k l : is_level k l -> l <> [] -> k < n.
  Proof. intros [_ H] Hne. destruct l as [|v l]; [congruence|]. apply (@lev_bound n outn inn HR src Hsrc v), H. now left. Qed.
  Lemma nsum_fin (X : nat -> num) (f : nat -> Qc) l : (forall v, In v l -> X v = Some (f v)) -> nsum (map X l) = Some (qsum (map f l)).
  Proof. induction l as [|a l IH]; simpl; intros H; auto. rewrite IH, H; auto. Qed.

  (* -- the default version -- *)
  Lemma bb_inv Ls P V F : bb_forward n outn inn src Ls P V F ->
    upto n outn src (length Ls) V /\ is_level (length Ls) F /\ paths n outn src V P /\ levels_ok Ls /\ (Ls = [] -> F <> []).
  Proof.
    intros H. induction H as [|Ls P V F out H (HV & HF & (f & HP & Hnn & Hf) & HL & _) Hne [ND Hadv]].
    - split; [apply (upto_start HR); auto|]. split; [apply (level_start HR); auto|]. split; [apply (paths_start HR); auto|]. split; simpl; auto. discriminate.
    - assert (Hout : is_level (S (length Ls)) out).
      { split; auto. intros v. rewrite Hadv, (next_level HR Hsrc v HV HF). split; intros (A & B & u & Hu & Hin); split; auto; split; auto; exists u; split; auto; apply (edge_rev HR); auto; apply HF in Hu; eapply (lev_lt HR Hsrc); eauto. }
      cbn [length]. split; [now apply upto_next|]. split; auto. split; [|split; [simpl; auto|discriminate]].
      set (f0 := fun d => if V d then f d else 0%Qc).
      assert (Hf0 : forall d, V d = false -> d < n -> forall s, In s (inn d) -> f0 s = f s /\ (mem s F = false -> f0 s = 0%Qc)).
      { intros d Hv Hd s Hs. destruct (forward_zero HR Hsrc f HV HF Hf Hd I Hv) as [_ X]. unfold f0. destruct (X s Hs) as [Y|Y].
        - assert (V s = true) as -> by (apply HV; exists (length Ls); split; auto; now apply HF). split; auto. apply mem_In in Y. congruence.
        - rewrite Y. destruct (V s); auto. }
      apply (paths_next HR Hsrc f _ (fun v => if mem v out then qsum (map f0 (inn v)) else f v) HV HF Hout Hf).
      + intros v. unfold reduce_nghs. destruct (mem v out); auto. apply nsum_fin. intros d _. unfold f0. destruct (V d); auto.
      + intros v. destruct (mem v out); auto. apply qsum_nn. intros s _. unfold f0. destruct (V s); auto. apply Qcle_refl.
      + intros d Hd Hv. destruct (mem d out) eqn:E; auto. apply mem_In, Hadv in E as (_ & E & _). congruence.
      + intros d Hd Hv. rewrite (map_ext_in f f0) by (intros s Hs; apply filter_In in Hs as [Hs _]; symmetry; now apply (Hf0 d)).
        rewrite qsum_filter by (intros s Hs; now apply (Hf0 d)). destruct (mem d out) eqn:E; auto. apply mem_false in E. rewrite Hf, Hv by auto.
        symmetry. apply qsum_0. intros s Hs. destruct (mem s F) eqn:Es; [|now apply (Hf0 d)]. exfalso. apply E, Hout, (next_level HR Hsrc d HV HF). apply mem_In in Es. eauto.
  Qed.
  Lemma bb_ends d : forall Ls P V F, n - length Ls <= d -> bb_forward n outn inn src Ls P V F -> exists Ls P V, bb_forward n outn inn src Ls P V [].
  Proof.
    induction d; intros Ls P V F Hd H; destruct F as [|x F]; eauto.
    - exfalso. destruct (bb_inv H) as (_ & HF & _). assert (length Ls < n) by (eapply level_small; eauto; discriminate). lia.
    - assert (HA : advances n outn V (x :: F) (filter (fun v => negb (V v) && existsb (fun u => mem v (outn u)) (x :: F)) (seq 0 n))).
      { split; [apply NoDup_filter, seq_NoDup|]. intros v. rewrite filter_In, in_seq, Bool.andb_true_iff, Bool.negb_true_iff, existsb_exists. split.
        - intros (A & B & u & C & D). split; [lia|]. split; auto. exists u. split; auto. now apply mem_In.
        - intros (A & B & u & C & D). split; [lia|]. split; auto. exists u. split; auto. now apply mem_In. }
      refine (IHd _ _ _ _ _ (bb_round H ltac:(discriminate) HA)). cbn [length]; lia.
  Qed.
  Lemma bb_back P Ls rest D V : (forall v, v < n -> P v = Some (qc (sig n outn src v))) -> is_level (length Ls) [] -> levels_ok Ls ->
    bb_backward outn (inverted P) Ls rest D V ->
    exists F, is_level (length rest) F /\ levels_ok rest /\ from n outn src (length rest) V /\ deps n outn src (length rest) D.
  Proof.
    intros HP HE HL H. induction H as [F rest ->|F1 rest D V H (F & HF & HL1 & HV & (f & HD & Hnn & Hf))].
    - exists F. destruct HL as (HF & _ & HL). split; auto. split; auto. split; [apply (from_start HR); auto|]. apply (deps_start HR); auto.
    - destruct HL1 as (HF1 & _ & HL1). exists F1. split; auto. split; auto. split; [now apply from_next|]. cbn [length] in *.
      set (f0 := fun d => if V d then f d else 0%Qc).
      assert (Hf0 : forall d, V d = false -> d < n -> lev d <> None -> forall s, In s (outn d) -> f0 s = f s /\ (mem s F = false -> f0 s = 0%Qc)).
      { intros d Hv Hd HRd s Hs. destruct (backward_zero HR Hsrc f HV HF Hf Hd HRd Hv) as [_ X]. unfold f0. destruct (X s Hs) as [Y|Y].
        - assert (V s = true) as -> by (apply HV; exists (S (length rest)); split; auto; now apply HF). split; auto. apply mem_In in Y. congruence.
        - rewrite Y. destruct (V s); auto. }
      apply (deps_round HR Hsrc P f (fun v => if mem v F1 then qsum (map f0 (outn v)) else f v) _ HP HV HF HF1 Hf).
      + intros v. unfold reduce_nghs. destruct (mem v F1); auto. apply nsum_fin. intros d _. unfold f0. destruct (V d); auto.
      + intros v. destruct (mem v F1); auto. apply qsum_nn. intros s _. unfold f0. destruct (V s); auto. apply Qcle_refl.
      + intros d Hd Hv. destruct (mem d F1) eqn:E; auto. apply mem_In, HF1 in E. apply HV in Hv as (j & Ej & Hj). rewrite E in Ej. injection Ej as <-. lia.
      + intros d Hd HRd Hv. rewrite (map_ext_in f f0) by (intros s Hs; apply filter_In in Hs as [Hs _]; symmetry; now apply (Hf0 d)).
        rewrite qsum_filter by (intros s Hs; now apply (Hf0 d)). destruct (mem d F1) eqn:E; auto. apply mem_false in E. destruct (lev d) as [j|] eqn:El; [|congruence].
        assert (Hj : j < length rest).
        { destruct (Nat.lt_trichotomy j (length rest)) as [|[->|Hj]]; auto; exfalso; [apply E, HF1, El|]. assert (V d = true) by (apply HV; exists j; split; auto). congruence. }
        rewrite (Hf d j El). destruct (Nat.leb_spec (S (length rest)) j); [lia|]. symmetry. apply qsum_0. intros s Hs. apply (Hf0 d); auto; [congruence|].
        apply mem_false. intros Hin. apply HF in Hin. destruct (lev_edge HR Hsrc _ _ Hs El) as (i & Ei & Hi). rewrite Hin in Ei. injection Ei as <-. lia.
  Qed.
  Lemma bb_back_ex I Ls : forall rest, (exists pre, Ls = pre ++ rest /\ pre <> []) -> exists D V, bb_backward outn I Ls rest D V.
  Proof.
    intros rest (pre & E & Hne). revert rest E. induction pre as [|F pre IH] using rev_ind; intros rest E; [congruence|].
    rewrite <- app_assoc in E. simpl in E. destruct pre as [|G pre].
    - eexists _, _. apply bb_bstart. exact E.
    - destruct (IH ltac:(discriminate) _ E) as (D & V & H). eexists _, _. apply (bb_bround H).
  Qed.
  (* -- the version with atomic additions -- *)
  Definition outdeg (v : nat) : nat := length (outn v).
  Definition indeg (v : nat) : nat := length (inn v).
  Definition good (F : frontier) : Prop := fdeg F = None \/ fdeg F = Some (list_sum (map outdeg (fv F))).
  Variable fa : bool.
  Lemma way_good deg F : good F -> (fdeg F = None -> deg = outdeg) -> good (snd (em_way n m deg F)) /\ fv (snd (em_way n m deg F)) = fv F.
  Proof.
    intros HG Hd. unfold em_way. destruct (length (fv F) =? 0); auto. destruct (fdense F && _); auto.
    assert (E : match fdeg F with Some d => d | None => list_sum (map deg (fv F)) end = list_sum (map outdeg (fv F))).
    { destruct HG as [E|E]; rewrite E; auto. now rewrite Hd. }
    rewrite E. destruct (_ =? 0); [split; auto; now right|]. destruct (_ <? _); split; auto; now right.
  Qed.
  Lemma way_none deg F : fst (em_way n m deg F) = WNone -> fv F = [] \/ match fdeg F with Some d => d | None => list_sum (map deg (fv F)) end = 0.
  Proof.
    unfold em_way. destruct (Nat.eqb_spec (length (fv F)) 0) as [E|E]; [left; now apply length_zero_iff_nil|]. destruct (fdense F && _); [discriminate|].
    destruct (Nat.eqb_spec (match fdeg F with Some d => d | None => list_sum (map deg (fv F)) end) 0); auto. destruct (_ <? _); discriminate.
  Qed.
  Lemma sum_pos (f : nat -> nat) l v : In v l -> 0 < f v -> list_sum (map f l) <> 0.
  Proof. induction l as [|a l IH]; simpl; [intros []|]. intros [->|H] Hp; [lia|]. specialize (IH H Hp). lia. Qed.
  Lemma bc_inv Ls P V F : bc_forward n m outn inn src fa Ls P V F ->
    upto n outn src (length Ls) V /\ is_level (length Ls) (fv F) /\ paths n outn src V P /\ levels_ok (map fv Ls) /\ Forall good Ls /\ fdeg F = None /\ (Ls = [] -> fv F <> []).
  Proof.
    intros H. induction H as [|Ls P V F P' F' out H (HV & HF & (f & HP & Hnn & Hf) & HL & HG & HC & _) Hne Hs].
    - split; [apply (upto_start HR); auto|]. split; [apply (level_start HR); auto|]. split; [apply (paths_start HR); auto|]. split; simpl; auto. split; auto. split; auto. discriminate.
    - assert (HFv : forall v, In v (fv F) -> v < n /\ V v = true /\ (0 < f v)%Qc).
      { intros v Hv. apply HF in Hv. pose proof (lev_lt HR Hsrc _ Hv) as Hn. assert (E : V v = true) by (apply HV; eauto). split; auto. split; auto.
        rewrite Hf, E by auto. apply qc_pos. eapply (sig_pos HR Hsrc); eauto. }
      assert (Hsome : fst (em_way n m (fun v => length (outn v)) F) = WNone -> forall d s, d < n -> True -> V d = false -> In s (inn d) -> ~ In s (fv F)).
      { intros E d s Hd _ Hv Hin Hs1. apply way_none in E as [E|E]; [congruence|]. rewrite HC in E. destruct (in_edge HR _ Hd Hin) as [_ He].
        revert E. apply (sum_pos _ _ _ Hs1). destruct (outn s); [destruct He|simpl; lia]. }
      destruct (step_ok HR f HP Hnn HFv (proj1 HF) (fun _ => True) (@forward_zero n outn inn HR src Hsrc _ V (fv F) f HV HF Hf) Hsome Hs)
        as (f' & A1 & A2 & A3 & A4 & A5 & A6 & A7 & A8).
      destruct (A5 (fun _ => I)) as [B1 B2].
      assert (Hout : is_level (S (length Ls)) (fv out)).
      { split; auto. intros v. rewrite B2, (next_level HR Hsrc v HV HF). tauto. }
      cbn [length]. split; [now apply (@upto_next n outn src Hsrc (length Ls) V (fv out))|]. split; auto. split; [|split; [|split; [|split]]]; auto; [| | |discriminate].
      + apply (paths_next HR Hsrc f _ f' HV HF Hout Hf); auto. intros d Hd Hv. apply A4; auto.
      + simpl. rewrite A7, map_length. auto.
      + constructor; auto. destruct A8 as [[-> _]| ->]; [now left|]. apply (way_good (deg := outdeg)); auto. now left.
  Qed.
  Lemma step_ex nbr rnbr V F X : exists X' F' out, bc_step n m fa nbr rnbr V F X X' F' out.
  Proof.
    destruct (em_way n m (fun v => length (nbr v)) F) as [w F'] eqn:E.
    assert (w = WNone \/ w <> WNone) as [->|Hw] by (destruct w; auto; right; discriminate); eexists _, _, _; apply step_map.
    - apply bc_none, E.
    - eapply bc_some; [exact E|exact Hw|apply Permutation_refl|apply Permutation_refl].
  Qed.
  Lemma bc_ends d : forall Ls P V F, n - length Ls <= d -> bc_forward n m outn inn src fa Ls P V F ->
    exists Ls P V F, bc_forward n m outn inn src fa Ls P V F /\ fv F = [].
  Proof.
    induction d; intros Ls P V F Hd H; destruct (fv F) as [|x l] eqn:E; eauto 6; assert (Hne : fv F <> []) by (rewrite E; discriminate).
    - exfalso. destruct (bc_inv H) as (_ & HF & _). assert (length Ls < n) by (eapply level_small; eauto). lia.
    - destruct (step_ex outn inn V F P) as (P' & F' & out & Hs). refine (IHd _ _ _ _ _ (fwd_round H Hne Hs)). cbn [length]; lia.
  Qed.
  (* every vertex with an incoming edge has an outgoing one *)
  Hypothesis Hdeg : forall v, v < n -> inn v <> [] -> outn v <> [].
  Lemma way_back k F : is_level (S k) (fv F) -> fv F <> [] -> good F -> fst (em_way n m indeg F) <> WNone.
  Proof.
    intros [_ HF] Hne HG E. apply way_none in E as [E|E]; auto. destruct (fv F) as [|v l] eqn:EF; auto. rewrite <- EF in *.
    assert (Hv : In v (fv F)) by (rewrite EF; now left). pose proof Hv as Hl. apply HF in Hl. pose proof (lev_lt HR Hsrc _ Hl) as Hn. destruct (lev_prev HR Hsrc _ Hl) as (u & Hu & Hin).
    apply (edge_rev HR) in Hin; auto; [|eapply (lev_lt HR Hsrc); eauto]. assert (Hi : inn v <> []) by (intros X; rewrite X in Hin; destruct Hin).
    revert E. destruct HG as [X|X]; rewrite X; apply (sum_pos _ _ v Hv).
    - unfold indeg. destruct (inn v); [congruence|simpl; lia].
    - specialize (Hdeg Hn Hi). unfold outdeg. destruct (outn v); [congruence|simpl; lia].
  Qed.
  Lemma back_finish I F : NoDup (fv F) -> forall D v, back_vertex I D F v = finish I D (fv F) v.
  Proof.
    unfold back_vertex, finish. intros ND. induction ND as [|a l Ha ND IH]; intros D v; auto. cbn [fold_left]. rewrite IH.
    change (mem v (a :: l)) with (existsb (Nat.eqb v) (a :: l)). cbn [existsb]. change (existsb (Nat.eqb v) l) with (mem v l). destruct (Nat.eqb_spec v a) as [->|Hne]; simpl.
    - assert (E : mem a l = false) by (now apply mem_false). rewrite E. apply fset_same.
    - rewrite fset_other; auto.
  Qed.
  Lemma deps_ext k D D2 : (forall v, D2 v = D v) -> deps n outn src k D -> deps n outn src k D2.
  Proof. intros H (f & A & B & C). exists f. split; auto. intros v. rewrite H. auto. Qed.
  Lemma bc_back P Ls rest D V F : (forall v, v < n -> P v = Some (qc (sig n outn src v))) -> is_level (length Ls) [] -> levels_ok (map fv Ls) -> Forall good Ls ->
    bc_backward n m outn inn fa (inverted P) Ls rest D V F ->
    is_level (length rest) (fv F) /\ fv F <> [] /\ good F /\ levels_ok (map fv rest) /\ Forall good rest /\ from n outn src (length rest) V /\ deps n outn src (length rest) D.
  Proof.
    intros HP HE HL HG H. induction H as [F rest ->|F1 rest D V F D' F' out H (HF & Hne & HGF & HL1 & HG1 & HV & (f & HD & Hnn & Hf)) Hs].
    - destruct HL as (HF & Hne & HL). rewrite map_length in HF. inversion HG as [|? ? G1 G2]; subst. split; auto. split; auto. split; auto. split; auto. split; auto.
      split; [apply (@from_start n outn inn HR src Hsrc (length rest) (fv F)); auto|]. eapply deps_ext; [intros v; apply back_finish, HF|]. apply (deps_start HR); auto.
    - destruct HL1 as (HF1 & Hne1 & HL1). rewrite map_length in HF1. inversion HG1 as [|? ? G1 G2]; subst. cbn [length] in *.
      assert (HFv : forall v, In v (fv F) -> v < n /\ V v = true /\ (0 < f v)%Qc).
      { intros v Hv. apply HF in Hv. split; [eapply (lev_lt HR Hsrc); eauto|]. split; [apply HV; eauto|]. rewrite (Hf v _ Hv), Nat.leb_refl. eapply (dep_pos HR Hsrc); eauto. }
      assert (Hsome : fst (em_way n m (fun v => length (inn v)) F) = WNone -> forall d s, d < n -> lev d <> None -> V d = false -> In s (outn d) -> ~ In s (fv F)).
      { intros E. exfalso. revert E. now apply (way_back HF). }
      destruct (step_ok (reversed_sym HR) f HD Hnn HFv (proj1 HF) (fun d => lev d <> None) (@backward_zero n outn inn HR src Hsrc _ V (fv F) f HV HF Hf) Hsome Hs)
        as (f' & A1 & A2 & A3 & A4 & _).
      split; auto. split; auto. split; auto. split; auto. split; auto. split; [apply (@from_next n outn src Hsrc (length rest) V (fv F1)); auto|].
      eapply deps_ext; [intros v; apply back_finish, HF1|]. apply (deps_round HR Hsrc P f f' _ HP HV HF HF1 Hf); auto.
  Qed.
  Lemma bc_back_ex I Ls : forall rest, (exists pre, Ls = pre ++ rest /\ pre <> []) -> exists D V F, bc_backward n m outn inn fa I Ls rest D V F.
  Proof.
    intros rest (pre & E & Hne). revert rest E. induction pre as [|F pre IH] using rev_ind; intros rest E; [congruence|].
    rewrite <- app_assoc in E. simpl in E. destruct pre as [|G pre].
    - eexists _, _, _. apply bwd_start. exact E.
    - destruct (IH ltac:(discriminate) _ E) as (D & V & F0 & H). destruct (step_ex inn outn V F0 D) as (D' & F' & out & Hs). eexists _, _, _. apply (bwd_round H Hs).
  Qed.
End Main.

(* what "level" means: the distance, and None for vertices that cannot be reached *)
Theorem C59_level : forall n outn inn src v, reversed n outn inn -> src < n ->
  (forall k, level n outn src v = Some k <-> dist outn src v k) /\ (level n outn src v = None <-> ~ reachable outn src v).
Proof.
  intros n outn inn src v HR Hsrc. split.
  - intros k. now apply (lev_dist HR).
  - apply level_none; auto. apply HR.
Qed.
Print Assumptions C59_level.

(* C59, the default version: on every graph, directed or not, with parallel edges or not, whatever
   the order in which the traversals find the vertices.  The forward loop takes at most n rounds
   and there is a result; the score of a reachable vertex v is the sum, over all other vertices t,
   of the part of the shortest walks to t that visit v; other vertices get a value that is
   not a number. *)
Theorem C59_default : forall n outn inn src, reversed n outn inn -> src < n ->
  (exists r, bb_returns n outn inn src r) /\ (forall Ls P V F, bb_forward n outn inn src Ls P V F -> length Ls <= n) /\
  (forall r, bb_returns n outn inn src r -> forall v, v < n ->
     r v = match level n outn src v with Some _ => Some (dependency n outn src v) | None => None end).
Proof.
  intros n outn inn src HR Hsrc. split; [|split].
  - destruct (bb_ends HR Hsrc (Ls := []) (le_n _) (bb_start n outn inn src)) as (Ls & P & V & H). destruct (bb_inv HR Hsrc H) as (_ & _ & _ & _ & Hne).
    destruct (@bb_back_ex outn (inverted P) Ls []) as (D & V' & HB); [exists Ls; split; [now rewrite app_nil_r|intros ->; now apply Hne]|].
    exists (scores (inverted P) D), Ls, P, V, D, V'. auto.
  - intros Ls P V F H. destruct (bb_inv HR Hsrc H) as (_ & _ & _ & HL & _). destruct Ls as [|l Ls]; simpl; [lia|]. destruct HL as (HF & Hne & _). apply (level_small HR Hsrc HF Hne).
  - intros r (Ls & P & V & D & V' & H & HB & ->) v Hv. destruct (bb_inv HR Hsrc H) as (HV & HF & HP & HL & _).
    pose proof (fun v => @paths_done n outn inn HR src Hsrc _ V P HV HF HP v) as HPv.
    destruct (bb_back HR Hsrc HPv HF HL HB) as (F & _ & _ & _ & (f & HD & _ & Hf)).
    apply (score_ok HR Hsrc); auto. intros Hl. destruct (level n outn src v) as [j|] eqn:El; [|congruence]. now rewrite HD, (Hf v j El).
Qed.
Print Assumptions C59_default.

(* The versions with atomic additions (fa = false) and with reductions for large frontiers
   (fa = true), whatever the order of the additions: the same, if every vertex with an incoming
   edge has an outgoing edge; in particular on symmetric graphs. *)
Theorem C59_atomic : forall n m outn inn src fa, reversed n outn inn -> src < n -> (forall v, v < n -> inn v <> [] -> outn v <> []) ->
  (exists r, bc_returns n m outn inn src fa r) /\ (forall Ls P V F, bc_forward n m outn inn src fa Ls P V F -> length Ls <= n) /\
  (forall r, bc_returns n m outn inn src fa r -> forall v, v < n ->
     r v = match level n outn src v with Some _ => Some (dependency n outn src v) | None => None end).
Proof.
  intros n m outn inn src fa HR Hsrc Hdeg. split; [|split].
  - destruct (bc_ends HR Hsrc (Ls := []) (le_n _) (fwd_start n m outn inn src fa)) as (Ls & P & V & F & H & HE). destruct (bc_inv HR Hsrc H) as (_ & _ & _ & _ & _ & _ & Hne).
    destruct (@bc_back_ex n m outn inn fa (inverted P) Ls []) as (D & V' & F' & HB); [exists Ls; split; [now rewrite app_nil_r|intros ->; now apply Hne]|].
    exists (scores (inverted P) D), Ls, P, V, F, D, V', F'. auto.
  - intros Ls P V F H. destruct (bc_inv HR Hsrc H) as (_ & _ & _ & HL & _). destruct Ls as [|l Ls]; simpl; [lia|]. destruct HL as (HF & Hne & _). rewrite map_length in HF. apply (level_small HR Hsrc HF Hne).
  - intros r (Ls & P & V & F & D & V' & F' & H & HE & HB & ->) v Hv. destruct (bc_inv HR Hsrc H) as (HV & HF & HP & HL & HG & _). rewrite HE in HF.
    pose proof (fun v => @paths_done n outn inn HR src Hsrc _ V P HV HF HP v) as HPv.
    destruct (bc_back HR Hsrc Hdeg HPv HF HL HG HB) as (_ & _ & _ & _ & _ & _ & (f & HD & _ & Hf)).
    apply (score_ok HR Hsrc); auto. intros Hl. destruct (level n outn src v) as [j|] eqn:El; [|congruence]. now rewrite HD, (Hf v j El).
Qed.
Print Assumptions C59_atomic.

(* Without that condition they do not compute the dependencies: on the directed path 0 -> 1 -> 2
   (ten vertices, seven of them isolated) vertex 1 gets 0 although all shortest walks to
   2 visit it.  The frontier {2} keeps the sum of its out-degrees, 0, and the backward
   traversal over its incoming edges takes it for their number. *)
Definition path3_out (v : nat) : list nat := match v with 0 => [1] | 1 => [2] | _ => [] end.
Definition path3_in (v : nat) : list nat := match v with 1 => [0] | 2 => [1] | _ => [] end.
Lemma path3_reversed : reversed 10 path3_out path3_in.
Proof.
  split; [|split].
  - intros [|[|u]] v _; simpl; intuition lia.
  - intros u [|[|[|v]]] _; simpl; intuition lia.
  - intros u v Hu Hv. do 10 (destruct u as [|u]; [do 10 (destruct v as [|v]; [reflexivity|]); lia|]). lia.
Qed.
Definition finite_is (x : num) (q : Qc) : bool := match x with Some y => Qeq_bool y q | None => false end.
Lemma finite_is_true x q : finite_is x q = true -> x = Some q.
Proof. destruct x as [y|]; [|discriminate]. simpl. intros H. apply Qeq_bool_eq in H. f_equal. now apply Qc_is_canon. Qed.
Lemma qc_is (x q : Qc) : Qeq_bool x q = true -> x = q.
Proof. intros H. apply Qeq_bool_eq in H. now apply Qc_is_canon. Qed.
(* one run: the additions in the order of the edges *)
Definition bc_do n m (nbr rnbr : nat -> list nat) (V : nat -> bool) (F : frontier) (X : nat -> num) : (nat -> num) * frontier * frontier :=
  let '(w, F') := em_way n m (fun v => length (nbr v)) F in
  match w with
  | WNone => (X, F', fresh [] false)
  | _ => let r := fold_left bc_call (filter (fun e => negb (V (snd e))) (bc_edges n w nbr rnbr (fv F))) (X, []) in
         (fst r, F', fresh (snd r) (match w with WDense => true | _ => false end))
  end.
Lemma bc_do_ok n m fa nbr rnbr V F X : bc_step n m fa nbr rnbr V F X (fst (fst (bc_do n m nbr rnbr V F X))) (snd (fst (bc_do n m nbr rnbr V F X))) (snd (bc_do n m nbr rnbr V F X)).
Proof.
  apply step_map. unfold bc_do. destruct (em_way _ _ _ F) as [w F'] eqn:E.
  destruct w; cbn [fst snd]; [now apply bc_none| |].
  - exact (@bc_some n m nbr rnbr V F X WDense F' _ _ E ltac:(discriminate) (Permutation_refl _) (Permutation_refl _)).
  - exact (@bc_some n m nbr rnbr V F X WSparse F' _ _ E ltac:(discriminate) (Permutation_refl _) (Permutation_refl _)).
Qed.
Definition fwd_do n m outn inn (st : list frontier * (nat -> num) * (nat -> bool) * frontier) :=
  let '(Ls, P, V, F) := st in let x := bc_do n m outn inn V F P in (snd (fst x) :: Ls, fst (fst x), mark V (snd x), snd x).
Definition fwd_is n m outn inn src fa (st : list frontier * (nat -> num) * (nat -> bool) * frontier) : Prop :=
  let '(Ls, P, V, F) := st in bc_forward n m outn inn src fa Ls P V F.
Lemma fwd_do_ok n m outn inn src fa st : fwd_is n m outn inn src fa st -> fv (snd st) <> [] -> fwd_is n m outn inn src fa (fwd_do n m outn inn st).
Proof. destruct st as [[[Ls P] V] F]. intros H Hne. apply (fwd_round H Hne (bc_do_ok n m fa outn inn V F P)). Qed.
Definition bwd_do n m outn inn I (st : list frontier * (nat -> num) * (nat -> bool) * frontier) :=
  let '(Ls, D, V, F) := st in
  match Ls with
  | [] => st
  | F1 :: rest => let x := bc_do n m inn outn V F D in (rest, back_vertex I (fst (fst x)) F1, mark V F1, F1)
  end.
Definition bwd_is n m outn inn fa I Ls (st : list frontier * (nat -> num) * (nat -> bool) * frontier) : Prop :=
  let '(rest, D, V, F) := st in bc_backward n m outn inn fa I Ls rest D V F.
Lemma bwd_do_ok n m outn inn fa I Ls st : bwd_is n m outn inn fa I Ls st -> bwd_is n m outn inn fa I Ls (bwd_do n m outn inn I st).
Proof. destruct st as [[[[|F1 rest] D] V] F]; auto. intros H. apply (bwd_round H (bc_do_ok n m fa inn outn V F D)). Qed.
Definition fwd_init (src : nat) : list frontier * (nat -> num) * (nat -> bool) * frontier :=
  ([], fset (fun _ => Some 0%Qc) src (Some 1%Qc), fset (fun _ => false) src true, fresh [src] false).
Definition bwd_init I Ls : list frontier * (nat -> num) * (nat -> bool) * frontier :=
  match Ls with [] => ([], I, fun _ => false, fresh [] false) | F :: rest => (rest, back_vertex I (fun _ => Some 0%Qc) F, mark (fun _ => false) F, F) end.
Fixpoint times {A} (k : nat) (f : A -> A) (x : A) : A := match k with 0 => x | S k => f (times k f x) end.
(* a run of k rounds *)
Definition bc_run n m outn inn src k :=
  let '(Ls, P, _, _) := times k (fwd_do n m outn inn) (fwd_init src) in
  let '(_, D, _, _) := times k (bwd_do n m outn inn (inverted P)) (bwd_init (inverted P) Ls) in
  scores (inverted P) D.
Lemma bc_run_ok n m outn inn src fa k :
  (forall j, j < k -> fv (snd (times j (fwd_do n m outn inn) (fwd_init src))) <> []) -> 0 < k ->
  fv (snd (times k (fwd_do n m outn inn) (fwd_init src))) = [] -> bc_returns n m outn inn src fa (bc_run n m outn inn src k).
Proof.
  intros Hj Hk He. assert (H : forall j, j <= k -> fwd_is n m outn inn src fa (times j (fwd_do n m outn inn) (fwd_init src)) /\
    length (fst (fst (fst (times j (fwd_do n m outn inn) (fwd_init src))))) = j).
  { induction j; intros Hle; [split; [apply fwd_start|auto]|]. destruct (IHj ltac:(lia)) as [A B]. split; [cbn [times]; apply fwd_do_ok; [exact A|apply Hj; lia]|].
    cbn [times]. destruct (times j _ _) as [[[Ls P] V] F]. simpl in *. congruence. }
  destruct (H k (le_n _)) as [A B]. unfold bc_run. destruct (times k (fwd_do n m outn inn) (fwd_init src)) as [[[Ls P] V] F]. simpl in A, B, He.
  set (I := inverted P). assert (HB : forall j, j <= k -> let st := times j (bwd_do n m outn inn I) (bwd_init I Ls) in bwd_is n m outn inn fa I Ls st /\ length (fst (fst (fst st))) = k - 1 - j).
  { induction j; intros Hle; cbn [times].
    - destruct Ls as [|F0 rest]; simpl in *; [lia|]. split; [now apply bwd_start|lia].
    - destruct (IHj ltac:(lia)) as [C D]. split; [now apply bwd_do_ok|]. destruct (times j _ _) as [[[[|F1 rest] D0] V0] F0]; simpl in *; lia. }
  destruct (HB k (le_n _)) as [C D]. cbv zeta in C, D. destruct (times k _ _) as [[[rest D0] V0] F0]. simpl in C, D. destruct rest; [|simpl in D; lia].
  exists Ls, P, V, F, D0, V0, F0. auto.
Qed.
Theorem C59_directed_refuted :
  exists n m outn inn src, reversed n outn inn /\ src < n /\ forall fa, exists r, bc_returns n m outn inn src fa r /\
    r 1 = Some 0%Qc /\ level n outn src 1 = Some 1 /\ dependency n outn src 1 = 1%Qc.
Proof.
  exists 10, 2, path3_out, path3_in, 0. split; [apply path3_reversed|]. split; [lia|]. intros fa. exists (bc_run 10 2 path3_out path3_in 0 3).
  split; [|split; [|split]].
  - apply bc_run_ok; [|lia|vm_compute; reflexivity]. intros j Hj. do 3 (destruct j as [|j]; [vm_compute; discriminate|]). lia.
  - apply finite_is_true. vm_compute. reflexivity.
  - vm_compute. reflexivity.
  - apply qc_is. vm_compute. reflexivity.
Qed.
Print Assumptions C59_directed_refuted.

(* The score of the source counts the other vertices it reaches (Brandes' dependency is defined for other vertices only). *)
Theorem C59_source : forall n outn inn src, reversed n outn inn -> src < n ->
  dependency n outn src src = qc (length (filter (fun t => negb (t =? src) && match level n outn src t with Some _ => true | None => false end) (seq 0 n))).
Proof.
  intros n outn inn src HR Hsrc. unfold dependency. generalize (seq 0 n). intros l. induction l as [|t l IH]; [reflexivity|]. cbn [filter].
  destruct (t =? src); cbn [negb andb]; auto. cbn [map qsum fold_right]. unfold qsum in IH. rewrite IH. unfold part_through at 1, shortest_walks.
  destruct (level n outn src t) as [k|] eqn:E.
  - assert (X : through src (walks_to outn k src t) = walks_to outn k src t).
    { apply filter_all. intros p Hp. apply filter_In in Hp as [Hp _]. apply mem_In. destruct k; simpl in Hp; [destruct Hp as [<-|[]]; now left|].
      apply in_flat_map in Hp as (v & _ & Hp). apply in_map_iff in Hp as (q & <- & _). now left. }
    rewrite X. cbn [length]. rewrite <- Nat.add_1_l, qc_add. f_equal. apply Qcmult_inv_r. intros Z. assert (P : 0 < length (walks_to outn k src t)).
    { pose proof (sig_pos HR Hsrc _ E) as P. unfold sig in P. now rewrite E in P. }
    apply qc_pos in P. rewrite Z in P. now apply Qclt_not_eq in P.
  - cbn [length through filter]. rewrite qc_0. unfold Qcdiv. ring.
Qed.
Print Assumptions C59_source.

(* Non-vacuity: the square 0-1-3-2-0 and an isolated vertex 4, from 0.  Vertex 1 lies on one of
   the two shortest walks to 3; a run returns these numbers. *)
Definition square (v : nat) : list nat := match v with 0 | 3 => [1; 2] | 1 | 2 => [0; 3] | _ => [] end.
Example C59_example_graph : reversed 5 square square /\ (forall v, v < 5 -> square v <> [] -> square v <> []).
Proof.
  split; auto. split; [|split].
  - intros u v Hu. do 5 (destruct u as [|u]; [simpl; intuition lia|]). lia.
  - intros u v Hv. do 5 (destruct v as [|v]; [simpl; intuition lia|]). lia.
  - intros u v Hu Hv. do 5 (destruct u as [|u]; [do 5 (destruct v as [|v]; [reflexivity|]); lia|]). lia.
Qed.
Example C59_example_run : bc_returns 5 8 square square 0 false (bc_run 5 8 square square 0 3) /\
  bc_run 5 8 square square 0 3 1 = Some (1 / qc 2)%Qc /\ bc_run 5 8 square square 0 3 4 = None /\
  dependency 5 square 0 1 = (1 / qc 2)%Qc /\ level 5 square 0 1 = Some 1 /\ level 5 square 0 4 = None /\ dependency 5 square 0 0 = qc 3.
Proof.
  split; [|split; [|split; [|split; [|split; [|split]]]]].
  - apply bc_run_ok; [|lia|vm_compute; reflexivity]. intros j Hj. do 3 (destruct j as [|j]; [vm_compute; discriminate|]). lia.
  - apply finite_is_true. vm_compute. reflexivity.
  - vm_compute. reflexivity.
  - apply qc_is. vm_compute. reflexivity.
  - vm_compute. reflexivity.
  - vm_compute. reflexivity.
  - apply qc_is. vm_compute. reflexivity.
Qed.
