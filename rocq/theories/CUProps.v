(* C72: CompactClustering and DetermineUnclusteredType. *)
From Verif Require Import Base ListUtil SIModel CUSpec CUModel CUProofs.
Local Open Scope nat_scope.
Unset Strict Implicit.

(* whatever the schedule, the clusters are renumbered 0 .. k-1 in the same order and k is returned *)
Theorem C72_compact mx cl sched out k :
  (forall i, i < length cl -> nth i cl mx = mx \/ nth i cl mx < length cl) -> length cl <= mx ->
  compact mx cl sched = Some (out, k) -> renumbers mx cl out k /\ k <= length cl.
Proof.
  intros Hcl Hmx E. assert (A : all_marked (mark_run mx cl sched) = true) by (unfold compact in E; destruct (all_marked _); [auto|discriminate]).
  destruct (@compact_ok mx cl Hcl sched A Hmx) as (o & k' & E' & H). rewrite E in E'. injection E' as -> ->. exact H.
Qed.
Print Assumptions C72_compact.

(* two steps of every iteration suffice *)
Theorem C72_compact_ends mx cl sched :
  (forall i, i < length cl -> nth i cl mx = mx \/ nth i cl mx < length cl) -> length cl <= mx ->
  (forall i, i < length cl -> 2 <= count_occ Nat.eq_dec sched i) -> exists out k, compact mx cl sched = Some (out, k).
Proof.
  intros Hcl Hmx Hs. destruct (@compact_ok mx cl Hcl sched (@mark_progress mx cl Hcl sched Hs) Hmx) as (o & k & E & _). eauto.
Qed.
Print Assumptions C72_compact_ends.

(* there is only one such renumbering, so no schedule gives another one *)
Theorem C72_unique mx cl out out' k k' : renumbers mx cl out k -> renumbers mx cl out' k' -> out' = out /\ k' = k.
Proof.
  intros [L N R O U] [L' N' R' O' U'].
  assert (G : forall c i, i < length cl -> nth i cl mx <> mx -> nth i out mx = c -> nth i out' mx = c).
  { induction c as [c IH] using lt_wf_ind. intros i Hi Hn E. destruct (Nat.lt_trichotomy (nth i out' mx) c) as [Q|[Q|Q]]; auto; exfalso.
    - destruct (U (nth i out' mx)) as (j & Hj & Hjn & Ej); [specialize (R i Hi Hn); lia|]. assert (E' : nth j out' mx = nth i out' mx) by (apply IH; auto).
      assert (nth j out' mx < nth i out' mx); [|lia]. apply O'; auto. apply O; auto. lia.
    - destruct (U' c) as (j & Hj & Hjn & Ej); [specialize (R' i Hi Hn); lia|]. assert (X : nth j out mx < nth i out mx) by (apply O; auto; apply O'; auto; lia).
      rewrite E in X. pose proof (IH _ X j Hj Hjn eq_refl). lia. }
  assert (E : forall i, i < length cl -> nth i out' mx = nth i out mx).
  { intros i Hi. destruct (Nat.eq_dec (nth i cl mx) mx) as [Q|Q]; [|now apply G]. rewrite (proj2 (N i Hi) Q). now apply N'. }
  split.
  - apply (nth_ext _ _ mx mx); [congruence|]. intros i Hi. apply E. lia.
  - destruct (Nat.lt_trichotomy k' k) as [Q|[Q|Q]]; auto; exfalso.
    + destruct (U k' Q) as (j & Hj & Hjn & Ej). specialize (R' j Hj Hjn). rewrite E in R' by auto. lia.
    + destruct (U' k Q) as (j & Hj & Hjn & Ej). specialize (R j Hj Hjn). rewrite E in Ej by auto. lia.
Qed.
Print Assumptions C72_unique.

(* an identifier that is neither a position nor kUnclustered is used as an index out of the array *)
Theorem C72_out_of_range mx cl sched i : i < length cl -> nth i cl mx <> mx -> length cl <= nth i cl mx -> compact mx cl sched = None.
Proof.
  intros Hi Hn Hb. unfold compact. destruct (all_marked _) eqn:E; auto. exfalso.
  assert (G : forall sched s, length (fst s) = length cl -> nth_error (snd s) i <> Some MDone ->
      length (fst (fold_left (mark_sys mx cl) sched s)) = length cl /\ nth_error (snd (fold_left (mark_sys mx cl) sched s)) i <> Some MDone).
  { clear E sched. induction sched as [|j sched IH]; intros s L H; cbn [fold_left]; auto. apply IH.
    - unfold mark_sys. destruct (nth_error (snd s) j) as [p|]; auto. cbn [fst]. unfold mark_step. destruct (nth_error cl j) as [c|]; auto. destruct p; auto.
      + destruct (c =? mx); auto. destruct (nth_error (fst s) c) as [[|]|]; auto.
      + destruct (c <? length (fst s)); cbn [fst]; auto. now rewrite length_lset.
    - unfold mark_sys. destruct (nth_error (snd s) j) as [p|] eqn:Ej; auto. cbn [snd]. destruct (Nat.eq_dec j i) as [->|Hne]; [|now rewrite nth_error_lset_other by auto].
      assert (i < length (snd s)) by (apply nth_error_Some; congruence). rewrite nth_error_lset_same by auto. unfold mark_step. rewrite (nth_error_nth' cl mx Hi). destruct p; cbn [snd]; try congruence.
      + destruct (Nat.eqb_spec (nth i cl mx) mx); [tauto|]. rewrite (proj2 (nth_error_None (fst s) _)) by lia. discriminate.
      + destruct (Nat.ltb_spec (nth i cl mx) (length (fst s))); [lia|]. discriminate. }
  destruct (G sched (mark_start cl)) as [_ X]; [apply repeat_length| |].
  { cbn [mark_start snd]. intros Q. apply nth_error_repeat' in Q. discriminate. }
  change (fold_left (mark_sys mx cl) sched (mark_start cl)) with (mark_run mx cl sched) in X. apply X. unfold all_marked in E. rewrite forallb_forall in E.
  assert (Ls : length (snd (mark_run mx cl sched)) = length cl).
  { unfold mark_run. assert (Y : forall sched s, length (snd (fold_left (mark_sys mx cl) sched s)) = length (snd s)).
    { clear. induction sched as [|j sched IH]; intros s; cbn [fold_left]; auto. rewrite IH. unfold mark_sys. destruct (nth_error (snd s) j); auto. cbn [snd]. apply length_lset. }
    rewrite Y. apply repeat_length. }
  rewrite <- Ls in Hi. pose proof (nth_error_nth' _ MTest Hi) as Q. specialize (E _ (nth_error_In _ _ Q)). rewrite Q. destruct (nth i _ MTest); try discriminate. reflexivity.
Qed.
Print Assumptions C72_out_of_range.

(* whatever the schedule, kHub is returned when two neighbours are in different clusters, kOutlier otherwise *)
Theorem C72_type mx cl nghs sched b : unclustered_type mx cl nghs sched = Some b -> (b = true <-> hub mx cl nghs).
Proof. apply type_ok. Qed.
Print Assumptions C72_type.

(* five steps of every call suffice *)
Theorem C72_type_ends mx cl nghs sched :
  (forall i, i < length nghs -> 5 <= count_occ Nat.eq_dec sched i) -> exists b, unclustered_type mx cl nghs sched = Some b.
Proof. apply hub_progress. Qed.
Print Assumptions C72_type_ends.

(* six vertices, clusters 4 and 1, vertex 2 in none; two iterations see an unset mark before either sets it *)
Example C72_race :
  let cl := [4; 4; 100; 1; 4; 1] in
  let sched := [0; 1; 5; 1; 0; 3; 2; 4; 5; 3; 3; 2; 4] in
  (forall i, i < length cl -> nth i cl 100 = 100 \/ nth i cl 100 < length cl) /\ compact 100 cl sched = Some ([1; 1; 100; 0; 1; 0], 2).
Proof. split; [|reflexivity]. intros i Hi. cbn [length] in Hi. do 6 (destruct i; [cbn; lia|]). lia. Qed.

(* neighbours 0, 3 and 1 race for the candidate: the answer is the same; with neighbours 0, 1 it is an outlier *)
Example C72_hub :
  let cl := [4; 4; 100; 1; 4; 1] in
  unclustered_type 100 cl [0; 3; 1; 2] [0; 1; 1; 2; 0; 3; 2; 0; 2; 2; 0; 0; 2] = Some true /\
  unclustered_type 100 cl [0; 3; 1; 2] [0; 0; 2; 2; 1; 1; 1; 1; 1; 3] = Some true /\
  unclustered_type 100 cl [0; 1; 2] [0; 1; 1; 0; 0; 2] = Some false.
Proof. repeat split; reflexivity. Qed.
