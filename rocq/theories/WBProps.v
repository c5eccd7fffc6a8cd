(* C44 and C55: shortest distances by buckets (DeltaStepping, wBFS). *)
From Coq Require Import Permutation.
From Verif Require Import Base BKModel WBModel WBSpec WBProofs WBRound DSRound.

(* C55.  wBFS, with every interleaving of the calls of every round: what it returns are the
   shortest distances (a distance of 2^31 - 1 or more counts as not reached), provided no sum of
   a shortest distance and a weight reaches 2^31. *)
Theorem C55_distances : forall n outw src o half D, src < n -> wgraph_ok n outw -> 0 < o -> 1 < half ->
  (forall s x u w, wdist outw src s x -> In (u, w) (outw s) -> x + w < half) ->
  wb_returns n outw src o half D -> distances_are n outw src (half - 1) D.
Proof. intros n outw src o half D H1 H2 H3 H4 H5. now apply wb_correct. Qed.

(* and it returns: there are at most n rounds, no state is stuck *)
Theorem C55_terminates : forall n outw src o half, src < n -> wgraph_ok n outw -> 0 < o -> 1 < half ->
  (forall s x u w, wdist outw src s x -> In (u, w) (outw s) -> x + w < half) ->
  (exists D, wb_returns n outw src o half D) /\
  forall r D s, wb_loop n outw src o half r D s ->
    r <= n /\ (wb_returns n outw src o half D \/ exists D' s', wb_loop n outw src o half (S r) D' s').
Proof.
  intros n outw src o half H1 H2 H3 H4 H5. split; [now apply wb_exists|]. intros r D s H. split.
  - eapply wb_rounds; eauto.
  - eapply wb_progress; eauto.
Qed.

(* C44.  One round of DeltaStepping, whatever the interleaving: distances only go down; every
   edge from the frontier is relaxed; a vertex is reported exactly when its distance went down,
   and exactly once; the distance reported as its previous one is above the new one and not
   above the real previous one. *)
Theorem C44_round : forall outw src top L D sched res, (forall v, D v <= top) ->
  (forall v, D v < top -> wpath outw src v (D v)) ->
  let st := exec (dact top) (calls outw L) sched ((D, fun _ => false), repeat DStart (length (calls outw L))) in
  all_done dresult (snd st) -> Permutation res (outputs dresult (calls outw L) (snd st)) ->
  (forall v, fst (fst st) v <= D v) /\
  (forall s u w, In s L -> In (u, w) (outw s) -> fst (fst st) u <= D s + w) /\
  (forall v, fst (fst st) v < D v -> wpath outw src v (fst (fst st) v)) /\
  NoDup (map fst res) /\ (forall v, In v (map fst res) <-> fst (fst st) v < D v) /\
  (forall v p, In (v, p) res -> fst (fst st) v < p /\ p <= D v).
Proof.
  intros outw src top L D sched res HD HP st Hdone Hres.
  destruct (@dround_done outw src top 0 (fun x => x) L D (fun x y H => H) HD (fun _ _ => Nat.le_0_l _) HP (fun _ => false) (fun _ => eq_refl) sched res Hdone Hres)
    as (A & B & C & _ & E & F & G).
  repeat split; auto; try (now apply C); try (now apply (E v p H)). intros v Hv. now apply F.
Qed.

(* every execution: a finite result is the length of a walk, so no distance is too short *)
Theorem C44_never_too_short : forall n outw src o null top bkt ok D, 0 < top -> (forall x y, x <= y -> bkt x <= bkt y) ->
  ds_returns n outw src o null top bkt ok D -> D src = 0 /\ forall v, D v <= top /\ (D v < top -> wpath outw src v (D v)).
Proof.
  intros n outw src o null top bkt ok D Ht Hm (r & m & s & fuel & s' & H & _ & ->). destruct (@ds_sound n outw src o null top bkt Ht Hm ok r m s H) as (_ & A & B & C).
  auto.
Qed.

(* the result is right if in every round the previous distances reported lie in the buckets the
   vertices were in *)
Theorem C44_distances : forall n outw src o null top bkt D, src < n -> wgraph_ok n outw -> 0 < o -> 0 < top ->
  (forall x, x < top -> bkt x < null) -> (forall x y, x <= y -> bkt x <= bkt y) ->
  ds_returns n outw src o null top bkt (honest null top bkt) D -> distances_are n outw src top D.
Proof. intros n outw src o null top bkt D H1 H2 H3 H4 H5 H6. now apply ds_correct. Qed.

(* that is so if the calls of a round are made one at a time, in any order; if no sum along a
   walk without repetition exceeds the largest distance, such executions exist and end *)
Theorem C44_one_at_a_time : forall n outw src o null top bkt, src < n -> wgraph_ok n outw -> 0 < o -> 0 < top ->
  (forall x, x < top -> bkt x < null) -> (forall x y, x <= y -> bkt x <= bkt y) ->
  (forall D, ds_returns n outw src o null top bkt one_at_a_time D -> distances_are n outw src top D) /\
  ((forall vs v x u w, spath outw src vs v x -> In (u, w) (outw v) -> x + w <= top) ->
   (exists D, ds_returns n outw src o null top bkt one_at_a_time D) /\
   forall r m s, ds_loop n outw src o null top bkt one_at_a_time r m s -> r <= n * top * (n + 1) + n /\
     (ds_returns n outw src o null top bkt one_at_a_time (fst m) \/
      exists m' s', ds_loop n outw src o null top bkt one_at_a_time (S r) m' s')).
Proof.
  intros n outw src o null top bkt H1 H2 H3 H4 H5 H6.
  assert (Hoh : forall D cs sched res, one_at_a_time_honest null top bkt D cs sched res -> honest null top bkt D cs sched res) by (intros ? ? ? ? [_ X]; exact X).
  split; [|intros Hfit; split; [|intros r m s H; split]].
  - intros D (r & m & s & fuel & s' & H & En & ->). apply (@ds_correct n outw src o null top bkt H1 H2 H3 H4 H5 H6 (one_at_a_time_honest null top bkt)); auto.
    exists r, m, s, fuel, s'. split; auto. now apply ds_quiet.
  - now apply ds_exists.
  - apply (@ds_rounds n outw src o null top bkt H1 H2 H3 H4 H5 H6 (one_at_a_time_honest null top bkt) r m s Hoh). now apply ds_quiet.
  - apply (@ds_progress n outw src o null top bkt H1 H2 H3 H4 H5 H6 Hfit r m s H).
Qed.

(* but not in every execution: two calls that relax the same vertex can make the second of them
   report the distance written by the first; the vertex is then not put into its new bucket, and
   what lies behind it is never reached.  Here delta is 10; the frontier {1, 2} relaxes vertex 3
   to 35 and to 31; the result says that vertex 4, at distance 32, cannot be reached. *)
Definition lost_graph (v : nat) : list (nat * nat) :=
  match v with 0 => [(1, 10); (2, 11)] | 1 => [(3, 25)] | 2 => [(3, 20)] | 3 => [(4, 1)] | _ => [] end.
Theorem C44_every_execution_refuted : exists D,
  ds_returns 5 lost_graph 0 127 1000 1000 (fun x => x / 10) (fun _ _ _ _ => True) D /\
  D 4 = 1000 /\ wdist lost_graph 0 4 32 /\ ~ distances_are 5 lost_graph 0 1000 D.
Proof.
  assert (Hw : wpath lost_graph 0 4 32).
  { change 32 with (11 + 20 + 1). apply wpath_S with (v := 3); [|now left]. apply wpath_S with (v := 2); [|now left].
    change 11 with (0 + 11). apply wpath_S with (v := 0); [constructor|right; now left]. }
  assert (Hmin : forall v y, wpath lost_graph 0 v y -> match v with 0 => 0 | 1 => 10 | 2 => 11 | 3 => 31 | 4 => 32 | _ => y end <= y).
  { induction 1 as [|v x u w Hp IH Hin]; [lia|].
    destruct v as [|[|[|[|v]]]]; simpl in Hin; try contradiction; repeat destruct Hin as [Hin|Hin]; try contradiction; injection Hin as <- <-; lia. }
  eexists. split; [|split; [|split]].
  - exists 2. do 2 eexists. exists 10. eexists. split; [|split; [|reflexivity]].
    + eapply ds_round with (fuel := 10) (sched := [0; 0; 0; 0; 1; 1; 1; 1; 1; 1; 0]); [eapply ds_round with (fuel := 10) (sched := [0; 0; 0; 0; 0; 0; 1; 1; 1; 1; 1; 1]); [apply ds_start|..]|..].
      * vm_compute. reflexivity.
      * vm_compute. repeat constructor; discriminate.
      * vm_compute. apply Permutation_refl.
      * exact I.
      * vm_compute. reflexivity.
      * vm_compute. repeat constructor; discriminate.
      * vm_compute. apply Permutation_refl.
      * exact I.
    + vm_compute. reflexivity.
  - vm_compute. reflexivity.
  - split; auto. intros y Hy. exact (Hmin 4 y Hy).
  - intros H. destruct (H 4) as (_ & _ & X); [lia|]. assert (E : 1000 <= 32); [|lia]. apply X; auto.
Qed.

(* -- the hypotheses are met ------------------------------------------------------------------- *)
Definition ex_graph (v : nat) : list (nat * nat) :=
  match v with 0 => [(1, 4); (2, 1)] | 1 => [(3, 1); (0, 4)] | 2 => [(1, 2); (3, 7); (2, 0)] | 3 => [(1, 1)] | _ => [] end.
Example C55_example : exists D, wb_returns 5 ex_graph 0 3 20 D /\ map D (seq 0 5) = [0; 3; 1; 4; 19].
Proof.
  eexists. split.
  - exists 4. do 1 eexists. exists 10. eexists. split.
    + eapply wb_round with (fuel := 10) (sched := [0; 0; 0; 0]); [eapply wb_round with (fuel := 10) (sched := [1; 0; 1; 0; 0; 1; 0; 1; 0; 1]);
       [eapply wb_round with (fuel := 10) (sched := [2; 0; 1; 2; 1; 0; 0; 1; 1; 0; 2; 2]); [eapply wb_round with (fuel := 10) (sched := [0; 1; 0; 1; 1; 0]); [apply wb_start|..]|..]|..]|..].
      all: try (vm_compute; reflexivity).
      all: try (vm_compute; apply Permutation_refl).
      all: vm_compute; repeat constructor; discriminate.
    + vm_compute. reflexivity.
  - vm_compute. reflexivity.
Qed.
Example C55_fits : wgraph_ok 5 ex_graph /\ forall s x u w, wdist ex_graph 0 s x -> In (u, w) (ex_graph s) -> x + w < 20.
Proof.
  split.
  - intros [|[|[|[|v]]]] u w Hv H; simpl in H; repeat destruct H as [H|H]; try contradiction; injection H as <- <-; lia.
  - intros s x u w [_ Hmin] Hin.
    assert (H2 : wpath ex_graph 0 2 (0 + 1)) by (apply wpath_S with (v := 0); [constructor|right; now left]).
    assert (H1 : wpath ex_graph 0 1 (0 + 1 + 2)) by (apply wpath_S with (v := 2); [exact H2|now left]).
    assert (H3 : wpath ex_graph 0 3 (0 + 1 + 2 + 1)) by (apply wpath_S with (v := 1); [exact H1|now left]).
    assert (Hx : s < 4 -> x <= 4).
    { intros Hs. destruct s as [|[|[|[|s]]]]; [specialize (Hmin 0 (wpath_0 _ _))|specialize (Hmin _ H1)|specialize (Hmin _ H2)|specialize (Hmin _ H3)|]; lia. }
    destruct s as [|[|[|[|v]]]]; simpl in Hin; repeat destruct Hin as [Hin|Hin]; try contradiction; injection Hin as <- <-; lia.
Qed.
Example C44_example : exists D, ds_returns 5 lost_graph 0 127 1000 1000 (fun x => x / 10) one_at_a_time D /\ map D (seq 0 5) = [0; 10; 11; 31; 32].
Proof.
  eexists. split.
  - exists 4. do 2 eexists. exists 20. eexists. split; [|split; [|reflexivity]].
    + eapply ds_round with (fuel := 10) (sched := []); [eapply ds_round with (fuel := 10) (sched := flat_map (fun i => repeat i 6) [0]);
       [eapply ds_round with (fuel := 10) (sched := flat_map (fun i => repeat i 6) [0; 1]); [eapply ds_round with (fuel := 10) (sched := flat_map (fun i => repeat i 6) [1; 0]); [apply ds_start|..]|..]|..]|..].
      all: try (eexists; reflexivity).
      all: try (exists []; reflexivity).
      all: try (vm_compute; reflexivity).
      all: try (vm_compute; apply Permutation_refl).
      all: try (vm_compute; repeat constructor; discriminate).
    + vm_compute. reflexivity.
  - vm_compute. reflexivity.
Qed.

Print Assumptions C55_distances.
Print Assumptions C55_terminates.
Print Assumptions C44_round.
Print Assumptions C44_never_too_short.
Print Assumptions C44_distances.
Print Assumptions C44_one_at_a_time.
Print Assumptions C44_every_execution_refuted.
