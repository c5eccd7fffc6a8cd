(* C63: strongly connected components. *)
From Coq Require Import Permutation.
From Verif Require Import Base ListUtil VSModel EMModel EMSpec FAModel FASpec FAProofs SCModel SCSpec SCSearch SCFirst SCProofs SCRuns SCFinal.

(* whatever the shuffle, the step sizes and the schedules: two vertices get the same number exactly when they reach each other *)
Theorem C63_components n outn inn m next_step comp : graph_ok n outn inn -> scc_returns n outn inn m next_step (Some comp) ->
  (forall u v, u < n -> v < n -> (comp u = comp v <-> strongly_connected outn u v)) /\ forall v, v < n -> comp v < n.
Proof. intros G H. exact (scc_ok G H). Qed.

Theorem C63_num_scc n outn inn m next_step comp : graph_ok n outn inn -> scc_returns n outn inn m next_step (Some comp) ->
  exists R, representatives n outn R /\ num_scc n comp = length R.
Proof. intros G H. exact (num_ok G H). Qed.

(* for every graph and every shuffle some schedule returns *)
Theorem C63_returns n outn inn m next_step P : graph_ok n outn inn -> 0 < n -> (forall x, 1 <= x -> 1 <= next_step x) ->
  Permutation P (NZ n outn inn) -> exists L, scc_labels n outn inn m next_step P (Some L).
Proof. intros G Hn Hs HP. exact (scc_runs G m next_step Hs Hn HP). Qed.

(* the path 0 -> 1 -> ... -> 48 *)
Definition path_out (v : nat) : list nat := if v <? 48 then [v + 1] else [].
Definition path_in (v : nat) : list nat := if (1 <=? v) && (v <=? 48) then [v - 1] else [].
Lemma path_ok : graph_ok 49 path_out path_in.
Proof.
  split; unfold path_out, path_in.
  - intros s d Hs Hd. destruct (Nat.ltb_spec s 48), (Nat.leb_spec 1 d), (Nat.leb_spec d 48); simpl; split; intros H3; try (destruct H3 as [H3|[]]; subst); try tauto; try lia; left; lia.
  - intros s d Hs H. destruct (Nat.ltb_spec s 48); simpl in H; try tauto. destruct H as [<-|[]]; lia.
  - intros s d Hd H. destruct (Nat.leb_spec 1 d), (Nat.leb_spec d 48); simpl in H; try tauto. destruct H as [<-|[]]. lia.
Qed.
Lemma path_search L s l L' : 1 <= s <= 47 -> (forall v, v < 49 -> (fst (L v) = false <-> 1 <= v <= s)) -> one_search 49 path_out path_in 48 L s l L' ->
  (forall v, v < 49 -> (fst (L' v) = false <-> 1 <= v <= s - 1)) /\ forall v, 1 <= v <= s - 1 -> L' v = (false, l).
Proof.
  intros Hs HL [iv ov Hi Ho]. assert (Hs49 : s < 49) by lia. assert (Hu : fst (L s) = false) by (apply HL; lia).
  pose proof (first_ok (graph_rev path_ok) Hs49 Hu Hi) as Fi. pose proof (first_ok path_ok Hs49 Hu Ho) as Fo.
  assert (Fi' : forall v, iv v = true <-> 1 <= v <= s).
  { intros v. rewrite Fi. split.
    - intros H. induction H as [|u v H IH Hv Hf]; [lia|]. unfold path_in in Hv. destruct ((1 <=? u) && (u <=? 48)); [|destruct Hv]. destruct Hv as [<-|[]]. apply HL in Hf; lia.
    - intros H. replace v with (s - (s - v)) by lia. assert (Hk : s - v < s) by lia. induction (s - v) as [|k IH]; [rewrite Nat.sub_0_r; constructor|].
      eapply fr_S; [apply IH; lia| |apply HL; lia]. unfold path_in. destruct (Nat.leb_spec 1 (s - k)), (Nat.leb_spec (s - k) 48); simpl; try lia. }
  assert (Fo' : forall v, ov v = true <-> v = s).
  { intros v. rewrite Fo. split; [|intros ->; constructor]. intros H. induction H as [|u v H IH Hv Hf]; auto. subst u.
    unfold path_out in Hv. destruct (s <? 48); [|destruct Hv]. destruct Hv as [<-|[]]. apply HL in Hf; lia. }
  assert (Hval : forall v, v < 49 -> (if v <? 49 then if iv v && ov v then (true, l) else if iv v || ov v then (false, l) else L v else L v) =
    if v =? s then (true, l) else if (1 <=? v) && (v <? s) then (false, l) else L v).
  { intros v Hv. destruct (Nat.ltb_spec v 49); [|lia]. specialize (Fi' v). specialize (Fo' v).
    destruct (Nat.eqb_spec v s), (Nat.leb_spec 1 v), (Nat.ltb_spec v s); simpl; destruct (iv v), (ov v); simpl; auto; exfalso;
      try (assert (false = true) by (apply Fi'; lia); discriminate); try (assert (false = true) by (apply Fo'; lia); discriminate);
      try (assert (1 <= v <= s) by (now apply Fi'); lia); try (assert (v = s) by (now apply Fo'); lia). }
  split.
  - intros v Hv. rewrite Hval by auto. specialize (HL v Hv). destruct (Nat.eqb_spec v s), (Nat.leb_spec 1 v), (Nat.ltb_spec v s); simpl; try (split; intros; [discriminate|lia]);
      try (split; intros; auto; lia); rewrite HL; lia.
  - intros v Hv. rewrite Hval by lia. destruct (Nat.eqb_spec v s), (Nat.leb_spec 1 v), (Nat.ltb_spec v s); simpl; auto; lia.
Qed.

(* the table of a search is sized from the labels counted before the round: labels moved on within the round fill it,
   and the search does not end (-beta 64) *)
Theorem C63_full_refuted : graph_ok 49 path_out path_in /\ scc_returns 49 path_out path_in 48 (fun x => 64 * x) None.
Proof.
  split; [exact path_ok|].
  set (P := 47 :: 46 :: seq 1 45). exists P, None. split; [|split; auto].
  { change (NZ 49 path_out path_in) with (seq 1 45 ++ [46; 47]). unfold P. apply Permutation_trans with ([47; 46] ++ seq 1 45); [apply Permutation_refl|].
    eapply Permutation_trans; [apply Permutation_app_comm|]. apply Permutation_app_head. apply perm_swap. }
  assert (Hfl : forall v, v < 49 -> (fst (first_labels 49 path_out path_in v) = false <-> 1 <= v <= 47)).
  { intros v Hv. pose proof (first_final 49 path_out path_in v) as F. change (zero 49 path_out path_in) with [0; 48] in F.
    destruct (fst (first_labels 49 path_out path_in v)); split; intros H; auto; try discriminate.
    - exfalso. destruct (proj1 F eq_refl) as [X|[X|[]]]; lia.
    - destruct (Nat.eq_dec v 0) as [E|E]; [exfalso; assert (X : false = true) by (apply F; left; auto); discriminate|].
      destruct (Nat.eq_dec v 48) as [E'|E']; [exfalso; assert (X : false = true) by (apply F; right; left; auto); discriminate|]. lia. }
  assert (Hh : heaviest 49 path_out 47).
  { split; [lia|]. intros w Hw. unfold path_out. destruct (Nat.ltb_spec w 48); simpl; lia. }
  assert (H47 : fst (first_labels 49 path_out path_in 47) = false) by (apply Hfl; lia).
  destruct (@one_runs 49 path_out path_in path_ok 48 (first_labels 49 path_out path_in) 47 3) as [L1 H1]; [lia|auto|].
  eapply s_first; [exact Hh|auto|exact H1|]. change (length (zero 49 path_out path_in) + 2) with 4.
  destruct (@path_search (first_labels 49 path_out path_in) 47 3 L1) as [A1 B1]; auto; [lia|].
  assert (EQ : filter (fun v => negb (fst (L1 v))) P = 46 :: seq 1 45).
  { rewrite (@filter_ext_in' _ _ (fun v => (1 <=? v) && (v <=? 46))); [reflexivity|]. intros v Hv.
    assert (Hv49 : v < 49) by (destruct Hv as [<-|[<-|Hv]]; [lia|lia|apply in_seq in Hv; lia]). specialize (A1 v Hv49).
    destruct (fst (L1 v)), (Nat.leb_spec 1 v), (Nat.leb_spec v 46); simpl; auto; exfalso; try (assert (true = false) by (apply A1; lia); discriminate); destruct (proj1 A1 eq_refl); lia. }
  rewrite EQ. assert (H46 : fst (L1 46) = false) by (apply A1; lia).
  destruct (@one_runs 49 path_out path_in path_ok 48 L1 46 4) as [L2 H2]; [lia|auto|].
  destruct (@path_search L1 46 4 L2) as [A2 B2]; auto; [lia|]. simpl Nat.sub in A2, B2.
  eapply r_first with (c := 46) (cs := []) (L' := L2); [simpl; lia|cbn [Nat.add Nat.min length seq Nat.sub firstn skipn filter]; now rewrite H46|exact H2|].
  set (off := 4 + length [46]). change (rounds 49 path_out path_in 48 (fun x => 64 * x) (46 :: seq 1 45) L2 (fun _ => false) 64 1 1 off None).
  assert (Ec : filter (fun v => negb (fst (L2 v))) (firstn (Nat.min (1 + 64) (length (46 :: seq 1 45)) - 1) (skipn 1 (46 :: seq 1 45))) = seq 1 45).
  { change (firstn _ _) with (seq 1 45). apply filter_all. intros v Hv. apply in_seq in Hv. apply negb_true_iff, A2; lia. }
  assert (Es : scalls path_in L2 (seq 1 45) = map (fun j => (j + 2, j + 1)) (seq 0 (45 - 1))).
  { unfold scalls. cbn [seq]. change (1 :: 2 :: ?l) with ([1] ++ (2 :: l)). rewrite flat_map_app.
    assert (X : forall v, 2 <= v <= 45 -> map (fun d => (v, d)) (filter (fun d => negb (fst (L2 d))) (path_in v)) = [(v, v - 1)]).
    { intros v Hv. unfold path_in. destruct (Nat.leb_spec 1 v), (Nat.leb_spec v 48); try lia. simpl. replace (fst (L2 (v - 1))) with false; [reflexivity|]. symmetry. apply A2; lia. }
    assert (X1 : flat_map (fun s => map (fun d => (s, d)) (filter (fun d => negb (fst (L2 d))) (path_in s))) [1] = []).
    { simpl. replace (fst (L2 0)) with true; [reflexivity|]. symmetry. specialize (A2 0 ltac:(lia)). destruct (fst (L2 0)); auto. destruct (proj1 A2 eq_refl). lia. }
    rewrite X1. change (flat_map (fun s => map (fun d => (s, d)) (filter (fun d => negb (fst (L2 d))) (path_in s))) (seq 2 44) = map (fun j => (j + 2, j + 1)) (seq 0 44)).
    transitivity (map (fun v => (v, v - 1)) (seq 2 44)); [|reflexivity].
    assert (Y : forall l, (forall v, In v l -> 2 <= v <= 45) -> flat_map (fun s => map (fun d => (s, d)) (filter (fun d => negb (fst (L2 d))) (path_in s))) l = map (fun v => (v, v - 1)) l).
    { induction l as [|v l IH]; intros Hl; auto. cbn [flat_map map]. rewrite X by (apply Hl; now left). rewrite IH by (intros; apply Hl; now right). reflexivity. }
    apply Y. intros v Hv. apply in_seq in Hv. lia. }
  set (T0 := combine (seq 1 45) (seq off 45)).
  assert (Ei : increments path_in L2 (seq 1 45) T0 = 44).
  { unfold increments. rewrite (map_ext_in _ (fun v => if v =? 1 then 0 else 1)); [reflexivity|]. intros v Hv. apply in_seq in Hv.
    unfold T0. rewrite labels_T0. destruct (Nat.leb_spec 1 v), (Nat.ltb_spec v (1 + 45)); try lia. simpl length. rewrite Nat.mul_1_r.
    unfold path_in. destruct (Nat.leb_spec 1 v), (Nat.leb_spec v 48); try lia. cbn [andb filter]. destruct (Nat.eqb_spec v 1) as [->|E].
    - destruct (leqb _ _) eqn:E; auto. apply leqb_eq in E. specialize (A2 0 ltac:(lia)). rewrite Nat.sub_diag in E. rewrite E, (B2 1) in A2 by lia. destruct (proj1 A2 eq_refl). lia.
    - rewrite (B2 v), (B2 (v - 1)) by lia. reflexivity. }
  assert (Ecap : resized (start_size (length (seq 1 45))) T0 (increments path_in L2 (seq 1 45) T0) = 2 ^ 10).
  { rewrite Ei. unfold resized. change (length T0) with 45. reflexivity. }
  assert (Hfull := @cascade L2 45 off (2 ^ 10)). cbv zeta in Hfull.
  destruct (fun a b => Hfull a b (unflag (seq 1 45) (fun _ => false))) as (m1 & ps1 & i & s & d & p & m2 & p2 & C1 & C2 & C3 & C4 & C5).
  { intros v Hv. rewrite !B2; auto; lia. }
  { simpl. lia. }
  { vm_compute. repeat constructor. }
  eapply r_full_in; [simpl; lia|rewrite Ec; discriminate|]. rewrite Ec. exists T0. split; [apply Permutation_refl|].
  eapply sl_full with (m1 := m1) (ps := ps1) (i := i) (s := s) (d := d) (p := p) (p2 := p2); [discriminate| |rewrite Es; exact C2|exact C3|exact C4|].
  - cbn [tab bits]. rewrite Ecap, Es, map_length, seq_length. exact C1.
  - cbn [tab]. rewrite Ecap. exact C5.
Qed.

(* the components of 0 <-> 1 -> 2 <-> 3 -> 4 *)
Definition ex_out (v : nat) : list nat := nth v [[1]; [0; 2]; [3]; [2; 4]; []] [].
Definition ex_in (v : nat) : list nat := nth v [[1]; [0]; [1; 3]; [2]; [3]] [].
Example C63_ex : exists comp, scc_returns 5 ex_out ex_in 6 (fun x => 2 * x) (Some comp) /\ comp 0 = comp 1 /\ comp 2 = comp 3 /\ comp 1 <> comp 2 /\ comp 3 <> comp 4 /\ comp 1 <> comp 4.
Proof.
  assert (G : graph_ok 5 ex_out ex_in).
  { split.
    - intros s d Hs Hd. do 5 (destruct s as [|s]; [do 5 (destruct d as [|d]; [simpl; intuition lia|]); lia|]). lia.
    - intros s d Hs. do 5 (destruct s as [|s]; [simpl; intuition lia|]). lia.
    - intros s d Hd. do 5 (destruct d as [|d]; [simpl; intuition lia|]). lia. }
  destruct (@C63_returns 5 ex_out ex_in 6 (fun x => 2 * x) (NZ 5 ex_out ex_in) G (Nat.lt_0_succ 4) ltac:(intros; cbv beta; lia) (Permutation_refl _)) as [L HL].
  assert (R : scc_returns 5 ex_out ex_in 6 (fun x => 2 * x) (Some (fun v => snd (L v) - 1))).
  { eexists. exists (Some L). split; [apply Permutation_refl|]. split; [exact HL|]. eexists. split; [reflexivity|auto]. }
  exists (fun v => snd (L v) - 1). split; [exact R|]. destruct (C63_components G R) as [A _].
  assert (St : forall u v, In v (ex_out u) -> reachable ex_out u v) by (intros u v H; exists 1; now apply walk_1).
  assert (Down : forall u v, reachable ex_out u v -> (2 <= u -> 2 <= v) /\ (4 <= u -> 4 <= v)).
  { intros u v [k H]. induction H as [|k v w H IH Hw]; [tauto|]. destruct IH as [I1 I2].
    do 5 (destruct v as [|v]; [simpl in Hw; lia|]). unfold ex_out in Hw. destruct v; simpl in Hw; tauto. }
  split; [apply A; try lia; split; apply St; simpl; auto|]. split; [apply A; try lia; split; apply St; simpl; auto|].
  repeat split; intros E; apply A in E as [E1 E2]; try lia; apply Down in E2; lia.
Qed.

Print Assumptions C63_components. Print Assumptions C63_num_scc. Print Assumptions C63_returns. Print Assumptions C63_full_refuted. Print Assumptions C63_ex.
