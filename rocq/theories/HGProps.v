(* C51: histogram. *)
From Coq Require Import Sorted Permutation.
From Verif Require Import Base ListUtil GBModel SFModel SFSpec SFProofs HTModel HTSpec KCModel HGModel HGSpec HGProofs.

(* C51.  Whatever the hash functions, the orders in which buckets and blocks are processed, the
   contents of uninitialised memory and the (sorted) sample of keys: apply_f is called exactly
   once for every key other than the table's empty key that occurs, with its number of
   occurrences, the results it produces are returned, and the table is left empty (and at least as
   large as before); on large inputs it may be called for the empty key as well.  [counted keys
   res]: res lists every key of keys once, with its number of occurrences. *)
Theorem C51_histogram : forall hash light nb width f empty seqthr medthr one_worker csthr csnb csorder junk cjunk o3 o5 sample keys t,
  (forall k, light k < nb) -> 2 * nb <= width -> 0 < seqthr ->
  0 < csnb -> Permutation csorder (seq 0 csnb) -> Permutation o3 (seq 0 nb) -> Permutation o5 (seq 0 nb) ->
  (medthr <= length keys -> StronglySorted le sample /\ incl sample keys /\ length sample = 2 * nb) -> all_empty t ->
  exists called t',
    histogram hash light nb width f empty seqthr medthr one_worker csthr csnb csorder junk cjunk o3 o5 sample keys t
      = Some (outputs f called, t') /\ all_empty t' /\ length t <= length t' /\
    (counted (filter (nonempty empty) keys) called \/ In empty keys /\ medthr <= length keys /\ counted keys called).
Proof.
  intros hash light nb width f empty seqthr medthr one_worker csthr csnb csorder junk cjunk o3 o5 sample keys t Hl Hw Hs Hc Hp H3 H5 Hsmp Ht.
  unfold histogram. destruct ((length keys <? seqthr) || one_worker) eqn:E.
  { destruct (@histogram_seq_ok hash f empty keys t Ht) as (res & t' & E1 & E2 & E3 & E4). exists res, t'. auto. }
  apply orb_false_iff in E as [E _]. apply Nat.ltb_ge in E.
  destruct (Nat.ltb_spec (length keys) medthr) as [Hm|Hm].
  - destruct (@histogram_buckets_ok hash light nb width f empty Hl [] (NoDup_nil _) ltac:(simpl; lia) keys ltac:(intros x []) ltac:(lia) ltac:(unfold total_buckets; simpl; lia)
      csthr csnb csorder junk cjunk o3 o5 t Ht Hc Hp H3 H5) as (res & t' & E1 & E2 & E3 & E4).
    exists res, t'. destruct E4 as [E4|[[] _]]. auto.
  - destruct (Hsmp Hm) as (HS & Hi & Hlen). destruct (heavy_hitters_ok HS) as (Hn & Hin & Hle).
    destruct (@histogram_buckets_ok hash light nb width f empty Hl (heavy_hitters sample) Hn ltac:(lia) keys ltac:(intros x Hx; auto) ltac:(lia)
      ltac:(unfold total_buckets; destruct (heavy_hitters sample); lia) csthr csnb csorder junk cjunk o3 o5 t Ht Hc Hp H3 H5) as (res & t' & E1 & E2 & E3 & E4).
    exists res, t'. destruct E4 as [E4|[E4 E5]]; (split; [auto|split; [auto|split; [auto|]]]); [auto|right; split; [apply Hi, Hin, E4|auto]].
Qed.

(* apply_f is called for the empty key: here 9, which fills most of a large input *)
Theorem C51_empty_key_refuted : ~ forall hash light nb width empty seqthr medthr one_worker csthr csnb csorder junk cjunk o3 o5 sample keys t res t',
  (forall k, light k < nb) -> 2 * nb <= width -> 0 < seqthr ->
  0 < csnb -> Permutation csorder (seq 0 csnb) -> Permutation o3 (seq 0 nb) -> Permutation o5 (seq 0 nb) ->
  StronglySorted le sample -> incl sample keys -> length sample = 2 * nb -> all_empty t ->
  histogram hash light nb width (fun p => Some p) empty seqthr medthr one_worker csthr csnb csorder junk cjunk o3 o5 sample keys t = Some (res, t') ->
  ~ In empty (map fst res).
Proof.
  intros H. apply (H (fun k => k) (fun k => k mod 2) 2 256 9 3 5 false 4 2 [1; 0] 99 98 [1; 0] [0; 1] [7; 9; 9; 9] [9; 7; 9; 4; 9; 8; 9; 9] (new_table 0 3)
    [(4, 1); (8, 1); (7, 1); (9, 5)] (new_table 0 8)); try (simpl; auto; lia); try (apply Permutation_refl); try apply perm_swap.
  - intros k. apply Nat.mod_upper_bound. lia.
  - repeat constructor.
  - intros x Hx. simpl in *. tauto.
  - intros c Hc. apply repeat_spec in Hc. now subst.
Qed.

(* the keys of edgeMapCount: the neighbours of the vertices of the subset, with multiplicity, the
   empty key in place of those that do not satisfy the condition *)
Theorem C51_neighbours : forall nghs cond empty vs shuffle junk, reorders shuffle ->
  induced nghs cond empty vs shuffle junk = Some (map (fun u => if cond u then u else empty) (flat_map nghs vs)).
Proof.
  intros nghs0 cond empty vs shuffle junk Hsh. unfold induced. set (gen := fun u => if cond u then u else empty).
  set (nghs := fun v => map gen (nghs0 v)).
  assert (Em : map gen (flat_map nghs0 vs) = flat_map nghs vs).
  { induction vs as [|v vs IH]; simpl; auto. rewrite map_app, IH; auto. }
  rewrite Em.
  assert (E : flat_map nghs vs = flat_map (fun i => nghs (nth i vs 0)) (seq 0 (length vs))).
  { assert (G : forall pre l, flat_map nghs l = flat_map (fun i => nghs (nth i (pre ++ l) 0)) (seq (length pre) (length l))).
    { intros pre l. revert pre. induction l as [|x l IH]; intros pre; simpl; auto. rewrite app_nth2, Nat.sub_diag by lia. cbn [nth]. f_equal.
      specialize (IH (pre ++ [x])). rewrite <- app_assoc, app_length, Nat.add_1_r in IH. exact IH. }
    apply (G []). }
  rewrite E. set (P := fun i => nghs (nth i vs 0)).
  assert (HlP : forall i, length (nghs0 (nth i vs 0)) = length (P i)) by (intros i; unfold P, nghs; now rewrite map_length).
  assert (Hoff : forall j, sum_before (fun i => length (nghs0 (nth i vs 0))) j = sum_before (fun i => length (P i)) j) by (intros j; apply sum_before_ext; intros; apply HlP).
  assert (Hlen : length (flat_map P (seq 0 (length vs))) = sum_before (fun i => length (P i)) (length vs)) by apply flat_map_sum.
  rewrite (run_stores_combine (flat_map P (seq 0 (length vs))) 0).
  - rewrite put_all; auto. rewrite repeat_length, Hoff. symmetry. exact Hlen.
  - rewrite Hsh. rewrite <- segments. apply Permutation_refl'. apply flat_map_ext. intros i. rewrite Hoff, HlP. reflexivity.
  - rewrite repeat_length. rewrite Hoff. simpl. rewrite Hlen. reflexivity.
Qed.

(* 12 keys, 2 light buckets; 5 is heavy (it occurs at least three times in the sample) and 6 is the
   empty key *)
Example C51_example : exists t, histogram (fun k => k) (fun k => k mod 2) 2 256 (fun kv => if snd kv =? 1 then None else Some kv) 6 3 5 false 4 2 [1; 0] 99 98
    [1; 0] [0; 1] [5; 5; 5; 7] [5; 7; 5; 4; 6; 5; 8; 5; 7; 9; 8; 8] (new_table 0 3) = Some ([(8, 3); (7, 2); (5, 4)], t) /\ all_empty t.
Proof. eexists. split; [vm_compute; reflexivity|]. intros c Hc. simpl in Hc. repeat (destruct Hc as [<-|Hc]; [reflexivity|]). contradiction. Qed.

Print Assumptions C51_histogram.
Print Assumptions C51_empty_key_refuted.
Print Assumptions C51_neighbours.
