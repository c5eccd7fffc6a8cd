(* The spaces of clique counting: rows of the induced graph, reset of the labels. *)
From Coq Require Import Permutation Sorted.
From Verif Require Import Base ListUtil ISModel ISSpec SFModel TCModel CQModel CQSpec CQRec.

Section Setup.
  Variable dg : nat -> list nat.
  (* rows for the vertices B *)
  Definition rows_ok (B : list nat) (edges : nat -> list nat) : Prop := forall j,
    map (fun x => nth x B 0) (edges j) = filter (has B) (dg (nth j B 0)) /\ forall x, In x (edges j) -> x < length B.
  (* old is the numbering of B *)
  Definition numbers (B : list nat) (old : nat -> nat) : Prop :=
    (forall j, j < length B -> old (nth j B 0) = j + 1) /\ forall w, ~ In w B -> old w = 0.
  Lemma row_ok B old v : numbers B old ->
    map (fun x => nth x B 0) (row dg old v) = filter (has B) (dg v) /\ forall x, In x (row dg old v) -> x < length B.
  Proof.
    intros [H1 H2]. unfold row. induction (dg v) as [|w l [IH1 IH2]]; [split; [reflexivity|intros x []]|]. cbn [flat_map filter]. destruct (has B w) eqn:E.
    - apply has_In in E. destruct (In_nth B w 0 E) as (j & Hj & <-). rewrite (H1 j Hj). destruct (Nat.ltb_spec 0 (j + 1)); [|lia]. replace (j + 1 - 1) with j by lia. cbn [app map].
      rewrite IH1. split; auto. intros x [<-|X]; auto.
    - apply has_false in E. rewrite (H2 w E). split; auto.
  Qed.
  Lemma number_from B : forall a old, NoDup B ->
    (forall j, j < length B -> fold_left (fun old p => fset old (fst p) (snd p + 1)) (combine B (seq a (length B))) old (nth j B 0) = a + j + 1) /\
    forall w, ~ In w B -> fold_left (fun old p => fset old (fst p) (snd p + 1)) (combine B (seq a (length B))) old w = old w.
  Proof.
    induction B as [|b B IH]; intros a old ND; [split; [simpl; lia|auto]|]. apply NoDup_cons_iff in ND as [Hb ND]. cbn [length seq combine fold_left fst snd].
    destruct (IH (S a) (fset old b (a + 1)) ND) as [A C]. split.
    - intros [|j] Hj; cbn [nth]; [rewrite C by auto; rewrite fset_same; lia|]. rewrite A by (simpl in Hj; lia). lia.
    - intros w Hw. simpl in Hw. rewrite C by tauto. apply fset_other. intuition.
  Qed.
  Lemma number_ok B old : NoDup B -> (forall w, old w = 0) -> numbers B (number B old).
  Proof. intros ND H. destruct (@number_from B 0 old ND) as [A C]. split; [intros j Hj; exact (A j Hj)|]. intros w Hw. unfold number. now rewrite C. Qed.
  Lemma setup_labels_ok i old : NoDup (dg i) -> (forall w, old w = 0) ->
    let '(edges, old') := setup_labels dg i old in rows_ok (dg i) edges /\ forall w, old' w = 0.
  Proof.
    intros ND H. unfold setup_labels. pose proof (@number_ok (dg i) old ND H) as HN. split.
    - intros j. now apply row_ok.
    - intros w. rewrite set_all_spec. destruct (has (dg i) w) eqn:E; auto. apply has_false in E. now apply HN.
  Qed.

  Lemma has_cons a l v : has (a :: l) v = (v =? a) || has l v.
  Proof. reflexivity. Qed.
  Lemma common_ok A : forall i B, increasing A -> increasing B ->
    map (fun x => nth (x - i) A 0) (common_from i A B) = filter (has A) B /\ forall x, In x (common_from i A B) -> i <= x < i + length A.
  Proof.
    induction A as [|a A IHA]; intros i B HA HB; [cbn [common_from]; split; [simpl; symmetry; apply filter_none; auto|intros x []]|].
    assert (HA' : increasing A) by now inversion HA. assert (Ha : Forall (lt a) A) by now inversion HA. rewrite Forall_forall in Ha.
    assert (Hshift : forall l, (forall x, In x l -> i + 1 <= x < i + 1 + length A) -> map (fun x => nth (x - i) (a :: A) 0) l = map (fun x => nth (x - (i + 1)) A 0) l).
    { intros l Hl. apply map_ext_in. intros x Hx. specialize (Hl x Hx). replace (x - i) with (S (x - (i + 1))) by lia. reflexivity. }
    induction B as [|b B IHB]; [simpl; split; auto; intros x []|].
    assert (HB' : increasing B) by now inversion HB. assert (Hb : Forall (lt b) B) by now inversion HB. rewrite Forall_forall in Hb.
    cbn [common_from]. destruct (Nat.eqb_spec a b) as [<-|Hne].
    - destruct (IHA (i + 1) B HA' HB') as [E1 E2]. cbn [map]. rewrite Nat.sub_diag, (Hshift _ E2), E1. cbn [nth filter]. rewrite has_cons, Nat.eqb_refl. cbn [orb]. split.
      + f_equal. apply filter_ext_in'. intros x Hx. rewrite has_cons. specialize (Hb x Hx). rewrite (proj2 (Nat.eqb_neq x a)) by lia. reflexivity.
      + intros x [<-|X]; [simpl; lia|]. apply E2 in X. simpl. lia.
    - destruct (Nat.ltb_spec a b) as [Hlt|Hge].
      + destruct (IHA (i + 1) (b :: B) HA' HB) as [E1 E2]. rewrite (Hshift _ E2), E1. split.
        * apply filter_ext_in'. intros x Hx. rewrite has_cons. destruct Hx as [<-|Hx]; [|specialize (Hb x Hx)]; rewrite (proj2 (Nat.eqb_neq _ a)) by lia; reflexivity.
        * intros x X. apply E2 in X. simpl. lia.
      + cbn [filter]. assert (E : has (a :: A) b = false). { apply has_false. intros [X|X]; [lia|]. specialize (Ha b X). lia. } rewrite E. now apply IHB.
  Qed.
  Lemma setup_intersect_ok i : increasing (dg i) -> (forall j, increasing (dg (nth j (dg i) 0))) -> rows_ok (dg i) (setup_intersect dg i).
  Proof.
    intros H0 H j. unfold setup_intersect. destruct (@common_ok (dg i) 0 (dg (nth j (dg i) 0)) H0 (H j)) as [A B]. split.
    - rewrite <- A. apply map_ext. intros x. now rewrite Nat.sub_0_r.
    - intros x X. now apply B in X.
  Qed.

  Lemma setup_labels_edge_ok top i l old : NoDup (dg l) -> length (dg l) < top -> (forall w, old w = 0) ->
    let '(B, edges, old') := setup_labels_edge dg top i l old in B = filter (has (dg i)) (dg l) /\ rows_ok B edges /\ forall w, old' w = 0.
  Proof.
    intros ND Htop H. unfold setup_labels_edge. set (old1 := set_all old (dg i) top).
    assert (H1 : forall w, old1 w = if has (dg i) w then top else 0) by (intros w; unfold old1; rewrite set_all_spec, H; reflexivity).
    assert (HF : forall T B old, NoDup (B ++ T) -> length B + length T < top -> (forall w, ~ In w B -> old w = old1 w) -> (forall j, j < length B -> old (nth j B 0) = j + 1) ->
      let '(B', old') := fold_left (fun acc ngh => let '(B, old) := acc in if old ngh =? top then (B ++ [ngh], fset old ngh (length B + 1)) else acc) T (B, old) in
      B' = B ++ filter (has (dg i)) T /\ (forall w, ~ In w B' -> old' w = old1 w) /\ forall j, j < length B' -> old' (nth j B' 0) = j + 1).
    { induction T as [|v T IHT]; intros B ol NDB Hl A1 A2; cbn [fold_left]; [rewrite app_nil_r; auto|].
      assert (Hv : ~ In v B). { intros X. apply NoDup_remove_2 in NDB. apply NDB, in_app_iff. now left. }
      rewrite (A1 v Hv), (H1 v). cbn [filter]. destruct (has (dg i) v) eqn:E.
      - rewrite Nat.eqb_refl. specialize (IHT (B ++ [v]) (fset ol v (length B + 1))). rewrite <- app_assoc in IHT. cbn [app] in IHT.
        rewrite (app_assoc B [v] _ : B ++ v :: filter (has (dg i)) T = (B ++ [v]) ++ filter (has (dg i)) T). apply IHT; auto.
        + rewrite app_length. simpl in *. lia.
        + intros w Hw. rewrite in_app_iff in Hw. rewrite fset_other by (simpl in Hw; intuition). apply A1. tauto.
        + intros j Hj. rewrite app_length in Hj. simpl in Hj. destruct (Nat.eq_dec j (length B)) as [->|].
          * rewrite nth_middle, fset_same. reflexivity.
          * rewrite app_nth1 by lia. rewrite fset_other; [apply A2; lia|]. intros <-. apply Hv, nth_In. lia.
      - destruct (Nat.eqb_spec 0 top); [lia|]. apply IHT; auto; [|simpl in *; lia]. now apply NoDup_remove_1 in NDB. }
    specialize (HF (dg l) [] old1 ND Htop (fun _ _ => eq_refl) (fun j Hj => ltac:(simpl in Hj; lia))).
    destruct (fold_left _ (dg l) _) as [B old2]. destruct HF as (EB & A1 & A2). cbn [app] in EB.
    set (old3 := fold_left (fun old ngh => if old ngh =? top then fset old ngh 0 else old) (dg i) old2).
    assert (H3 : forall T ol w, fold_left (fun old ngh => if old ngh =? top then fset old ngh 0 else old) T ol w = if has T w && (ol w =? top) then 0 else ol w).
    { induction T as [|v T IHT]; intros ol w; cbn [fold_left]; auto. rewrite IHT, has_cons. destruct (Nat.eqb_spec w v) as [->|Hne].
      - cbn [orb andb]. destruct (ol v =? top) eqn:E; [rewrite fset_same|rewrite E, Bool.andb_false_r; auto]. destruct (has T v && (0 =? top)); auto.
      - cbn [orb]. destruct (ol v =? top); auto. now rewrite fset_other by auto. }
    assert (HN : numbers B old3).
    { split.
      - intros j Hj. unfold old3. rewrite H3, (A2 j Hj). assert (j + 1 <> top).
        { assert (length B <= length (dg l)); [|lia]. rewrite EB. apply filter_len_le. }
        rewrite (proj2 (Nat.eqb_neq (j + 1) top)) by auto. rewrite Bool.andb_false_r. reflexivity.
      - intros w Hw. unfold old3. rewrite H3, (A1 w Hw), (H1 w). destruct (has (dg i) w); [now rewrite Nat.eqb_refl|]. reflexivity. }
    split; auto. split; [intros j; now apply row_ok|]. intros w. rewrite set_all_spec. destruct (has (dg l) w) eqn:E; auto. apply has_false in E. apply HN. rewrite EB. intros X. apply filter_In in X. tauto.
  Qed.

  (* chains of the induced graph are chains of DG *)
  Lemma local_chains B edges r : NoDup B -> rows_ok B edges -> forall S, (forall x, In x S -> x < length B) ->
    map (map (fun x => nth x B 0)) (chains edges r S) = chains dg r (map (fun x => nth x B 0) S).
  Proof.
    intros ND HR. set (rl := fun x => nth x B 0). induction r as [|r IH]; intros S HS; [reflexivity|]. cbn [chains].
    assert (Hinj : forall x y, x < length B -> y < length B -> rl x = rl y -> x = y) by (intros x y Hx Hy; apply NoDup_nth; auto).
    assert (Hrow : forall v, map rl (filter (has S) (edges v)) = filter (has (map rl S)) (dg (rl v))).
    { intros v. destruct (HR v) as [A C]. fold rl in A. transitivity (filter (has (map rl S)) (map rl (edges v))).
      - clear A. induction (edges v) as [|x l IHl]; auto. cbn [filter map].
        assert (E : has (map rl S) (rl x) = has S x).
        { destruct (has S x) eqn:E; [apply has_In; apply has_In in E; now apply in_map|]. apply has_false in E. apply has_false. intros X. apply in_map_iff in X as (y & Ey & Hy).
          apply E. replace x with y; auto. apply Hinj; auto. apply C. now left. }
        rewrite E. destruct (has S x); cbn [map]; rewrite IHl; auto; intros y Hy; apply C; now right.
      - rewrite A. clear A. change (nth v B 0) with (rl v). generalize (dg (rl v)) as T. induction T as [|w l IHl]; [reflexivity|]. cbn [filter]. destruct (has B w) eqn:E.
        + cbn [filter]. now rewrite IHl.
        + assert (Ew : has (map rl S) w = false).
          { apply has_false. intros X. apply in_map_iff in X as (y & <- & Hy). apply has_false in E. apply E. apply nth_In. auto. }
          now rewrite Ew. }
    rewrite flat_map_concat_map, flat_map_concat_map, !map_map, concat_map, map_map. f_equal. apply map_ext. intros v. rewrite !map_map. cbn [map].
    rewrite <- Hrow, <- IH; [|intros x Hx; apply filter_In in Hx as [Hx _]; destruct (HR v) as [_ C]; auto]. now rewrite map_map.
  Qed.
  Lemma local_all B : map (fun x => nth x B 0) (seq 0 (length B)) = B.
  Proof. apply map_nth_seq. Qed.
End Setup.
