(* C96: intersecting the neighbours of two vertices through their iterators (peel.h vtx_intersect). *)
From Coq Require Import Sorted.
From Verif Require Import Base ISModel ISSpec CQSpec KPModel KPCount FIModel FISpec FIProofs FIMModel.
Unset Strict Implicit.

Section p.
  Context {W : Type}.
  Implicit Types arr l rest : list (nat * W).

  (* an iterator with the edges l still to be handled, the first of which is its current one *)
  Definition stands arr rest (d idx : nat) l (it : iter) : Prop :=
    idx + length l = d /\ match l with [] => True | a :: l' => it = at_ d (S idx) a /\ skipn (S idx) arr = l' ++ rest end.

  Lemma advance_ok : forall arr rest d idx a l it, stands arr rest d idx (a :: l) it ->
    exists it', advance arr it = Some it' /\ stands arr rest d (S idx) l it'.
  Proof.
    intros arr rest d idx a l it (L & -> & S1). cbn [length] in L. unfold advance, has_next. cbn [proc degree at_]. destruct l as [|b l].
    - replace (S idx <? d) with false by (symmetry; apply Nat.ltb_ge; cbn in L; lia). eexists. split; [reflexivity|]. split; [cbn in *; lia|exact I].
    - cbn [app length] in *. replace (S idx <? d) with true by (symmetry; apply Nat.ltb_lt; lia).
      apply skipn_cons in S1 as (S1 & S2). rewrite (next_at d a S1). eexists. split; [reflexivity|]. split; [cbn; lia|]. split; auto.
  Qed.

  Lemma start_ok : forall l rest, exists it, get_iter (l ++ rest) (length l) = Some it /\ stands (l ++ rest) rest (length l) 0 l it.
  Proof. intros [|a l] rest; eexists; (split; [reflexivity|]); (split; [reflexivity|]); cbn; auto. Qed.

  Lemma stands_cur : forall arr rest d idx a l it, stands arr rest d idx (a :: l) it -> cur it = Some a.
  Proof. intros arr rest d idx a l it (_ & -> & _). reflexivity. Qed.

  Lemma vtx_loop_ok : forall keep arr_i rest_i arr_v rest_v di dv fuel A B ii vi ia va acc,
    stands arr_i rest_i di ii A ia -> stands arr_v rest_v dv vi B va -> length A + length B < fuel ->
    vtx_loop arr_i arr_v di dv keep fuel ii vi ia va acc = Some (acc ++ filter keep (both (map fst A) (map fst B))).
  Proof.
    intros keep arr_i rest_i arr_v rest_v di dv fuel. induction fuel as [|fuel IH]; intros A B ii vi ia va acc HA HB F; [lia|].
    cbn [vtx_loop]. destruct A as [|a A].
    { destruct HA as (L & _). cbn in L. replace (ii <? di) with false by (symmetry; apply Nat.ltb_ge; lia). cbn. now rewrite app_nil_r. }
    destruct B as [|b B].
    { destruct HB as (L & _). cbn in L. replace (vi <? dv) with false by (symmetry; apply Nat.ltb_ge; lia). rewrite andb_false_r. cbn. now rewrite app_nil_r. }
    replace (ii <? di) with true by (symmetry; apply Nat.ltb_lt; destruct HA as (L & _); cbn in L; lia).
    replace (vi <? dv) with true by (symmetry; apply Nat.ltb_lt; destruct HB as (L & _); cbn in L; lia). cbn [andb].
    rewrite (stands_cur HA), (stands_cur HB). cbn [length] in F.
    destruct (advance_ok HA) as (ia' & Ea & HA'). destruct (advance_ok HB) as (va' & Eb & HB').
    cbn [map both]. destruct (fst a =? fst b).
    - rewrite Ea, Eb, (IH A B _ _ _ _ _ HA' HB') by lia. cbn [filter]. destruct (keep (fst a)); [now rewrite <- app_assoc|reflexivity].
    - destruct (fst a <? fst b).
      + rewrite Ea, (IH A (b :: B) _ _ _ _ _ HA' HB) by (cbn; lia). reflexivity.
      + rewrite Eb, (IH (a :: A) B _ _ _ _ _ HA HB') by (cbn; lia). reflexivity.
  Qed.
End p.

(* for all sorted adjacency lists, whatever follows them in memory: f is called with 1 once for every common neighbour that is
   kept, in increasing order, and then with their number for vdg; nothing behind the edges of the two vertices is read *)
Theorem C96_intersect : forall W (A B rest_a rest_b : list (nat * W)) keep vdg,
  increasing (map fst A) -> increasing (map fst B) ->
  let common := filter (fun w => keep w && existsb (Nat.eqb w) (map fst B)) (map fst A) in
  vtx_intersect_it (A ++ rest_a) (B ++ rest_b) (length A) (length B) keep vdg
  = Some (map (fun w => (w, 1)) common ++ [(vdg, length common)]).
Proof.
  intros W A B ra rb keep vdg IA IB common. unfold vtx_intersect_it.
  destruct (start_ok A ra) as (ia & -> & HA). destruct (start_ok B rb) as (ib & -> & HB).
  rewrite (vtx_loop_ok keep _ HA HB) by lia. cbn [app].
  assert (E : filter keep (both (map fst A) (map fst B)) = common); [|now rewrite E].
  rewrite (both_ok IA IB). unfold common. clear. generalize (map fst A) as X. generalize (map fst B) as Y. intros Y X.
  induction X as [|x X IH]; [reflexivity|]. cbn [filter]. unfold has at 1.
  destruct (existsb (Nat.eqb x) Y) eqn:E1; cbn [filter]; destruct (keep x) eqn:E2; cbn [andb]; now rewrite IH.
Qed.

Example C96_intersect_example :
  vtx_intersect_it [(1, 0); (3, 0); (4, 0); (8, 0); (2, 0)] [(3, 0); (4, 0); (5, 0); (8, 0); (9, 0)] 4 4 (fun w => negb (w =? 4)) 7
  = Some [(3, 1); (8, 1); (7, 2)].
Proof. reflexivity. Qed.

Print Assumptions C96_intersect.
