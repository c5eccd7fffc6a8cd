(* C19 and C20: the bucketing structure. *)
From Coq Require Import Permutation Sorted.
From Verif Require Import Base ListUtil BKModel BKSpec BKProofs.

(* C19.  After any history of calls, next_bucket terminates, trips no assertion, and returns
   either the null bucket, when nothing is due, or the first bucket that has a member, with
   exactly its members, and that bucket is not before the one returned last. *)
Theorem C19_next_bucket : forall inc o null n d0 s d due last, 0 < o ->
  run inc o null n d0 any s d due last ->
  (exists fuel r s', next_bucket inc o fuel d s = Ret r s') /\
  (forall fuel, next_bucket inc o fuel d s <> Assertion_failed) /\
  (forall fuel r s', next_bucket inc o fuel d s = Ret r s' ->
     match r with
     | None => forall v, due v = false
     | Some (b, L) => L <> [] /\ (forall v, In v L <-> due v = true /\ d v = b) /\
                      (forall v, due v = true -> no_later inc b (d v)) /\ no_later inc last b
     end).
Proof.
  intros inc o null n d0 s d due last Ho Hr. destruct (any_run Ho Hr) as (t & G). split; [exact (good_ends Ho G)|]. split.
  - intros fuel Ha. destruct (good_ends Ho G) as (f' & r & s' & E). clear Hr.
    assert (Hm : forall f f' s, next_bucket inc o f d s = Assertion_failed -> next_bucket inc o f' d s = Ret r s' -> False).
    { clear. induction f as [|f IH]; intros [|f'] s A B; cbn [next_bucket] in *; try discriminate.
      destruct (((length (bucket s (cur s)) =? 0) && (0 <? nelm s))%bool).
      - destruct (advance inc o d s); [eauto|discriminate].
      - destruct (nelm s =? 0); [discriminate|]. destruct (filter _ _); [eauto|discriminate]. }
    eauto.
  - intros fuel r s' E. exact (good_answer Ho d0 fuel G E).
Qed.

(* no identifier is returned twice in one bucket, provided identifiers only move closer, or
   only identifiers that were already returned are put back (any later bucket) *)
Theorem C19_no_repeats : forall inc o null n d0 ok s d due last fuel b L s', 0 < o ->
  ok = closer inc null \/ ok = (fun _ => requeue) ->
  run inc o null n d0 ok s d due last ->
  next_bucket inc o fuel d s = Ret (Some (b, L)) s' -> NoDup L.
Proof.
  intros inc o null n d0 ok s d due last fuel b L s' Ho [-> | ->].
  - apply K_nodup with (K := K1 inc o); auto; [now apply K1_keeps|]. intros t s1 d1 due1 [A _]. exact A.
  - now apply next_nodup.
Qed.

(* emptying the structure: every identifier that has a bucket comes out exactly once, with
   its bucket, in order *)
Theorem C19_drain : forall inc o null n d i, 0 < o -> i < n -> d i < null -> (forall j, d j <= null) ->
  (forall j, n <= j -> d j = null) ->
  (exists out, drains inc o d (make inc o null n d) out) /\
  (forall out, drains inc o d (make inc o null n d) out ->
     Permutation (concat (map snd out)) (filter (fun v => d v <? null) (seq 0 n)) /\
     (forall b L v, In (b, L) out -> In v L -> d v = b) /\
     StronglySorted (earlier inc) (map fst out)).
Proof.
  intros inc o null n d i Ho Hi Hd Hle Hout.
  assert (Hext : exists i', i' < n /\ d i' < null /\ forall j, j < n -> d j < null -> no_later inc (d i') (d j)).
  { assert (Hx : forall k, (forall j, j < k -> d j = null) \/ exists i', i' < k /\ d i' < null /\ forall j, j < k -> d j < null -> no_later inc (d i') (d j)).
    { induction k as [|k [IH|(i' & A & B & C)]]; [left; lia| |].
      - destruct (Nat.eq_dec (d k) null) as [E|E].
        + left. intros j Hj. destruct (Nat.eq_dec j k) as [->|]; auto. apply IH. lia.
        + right. exists k. specialize (Hle k). repeat split; try lia. intros j Hj Hn. assert (j = k) as -> by (destruct (Nat.eq_dec j k); auto; rewrite IH in Hn; lia).
          unfold no_later. destruct inc; lia.
      - right. destruct (Nat.eq_dec (d k) null) as [E|E].
        + exists i'. repeat split; auto. intros j Hj Hn. apply C; auto. destruct (Nat.eq_dec j k) as [->|]; lia.
        + specialize (Hle k). destruct (Nat.leb_spec (d k) (d i')), inc eqn:Ei.
          * exists k. repeat split; try lia. intros j Hj Hn. destruct (Nat.eq_dec j k) as [->|]; [simpl; lia|]. specialize (C j ltac:(lia) Hn). simpl in *. lia.
          * exists i'. repeat split; auto. intros j Hj Hn. destruct (Nat.eq_dec j k) as [->|]; [simpl; lia|]. apply C; auto; lia.
          * exists i'. repeat split; auto. intros j Hj Hn. destruct (Nat.eq_dec j k) as [->|]; [simpl; lia|]. apply C; auto; lia.
          * exists k. repeat split; try lia. intros j Hj Hn. destruct (Nat.eq_dec j k) as [->|]; [simpl; lia|]. specialize (C j ltac:(lia) Hn). simpl in *. lia. }
    destruct (Hx n) as [E|H]; auto. exfalso. rewrite E in Hd; auto. lia. }
  destruct Hext as (i' & Hi' & Hd' & Hf').
  pose proof (@run_start inc o null n d (fun _ => requeue) i' Hi' Hd' Hle Hf' Hout) as Hr.
  assert (HU : forall v, (v <? n) && (d v <? null) = true -> In v (seq 0 n)).
  { intros v Hv. apply andb_prop in Hv as [Hv _]. apply Nat.ltb_lt in Hv. apply in_seq. lia. }
  split.
  - eapply drain_exists; eauto.
  - intros out Ho'. destruct (drain_out Ho Ho' Hr HU (seq_NoDup n 0)) as (A & B & C). split; [|split; auto].
    + rewrite A. erewrite filter_ext_in'; [reflexivity|]. intros v Hv. apply in_seq in Hv. now rewrite (proj2 (Nat.ltb_lt v n)) by lia.
    + intros b L v HL Hv. now apply (B b L HL).
Qed.

(* the bulk update puts the listed identifiers at the end of their buckets, in list order *)
Theorem C20_update : forall o l s, length (bk s) = o + 1 -> (forall v b, In (v, Some b) l -> b <= o) ->
  let s' := update_seq l s in
  (forall j, bucket s' j = bucket s j ++ map fst (filter (fun vb => match snd vb with Some b => b =? j | None => false end) l)) /\
  nelm s' = nelm s + length (filter (fun vb => match snd vb with Some _ => true | None => false end) l) /\
  cur s' = cur s /\ range s' = range s.
Proof.
  intros o l s HL Hf s'. destruct (@update_seq_ok l s) as (_ & U2 & U3 & U4 & _ & U6); [|auto].
  intros v b Hin. rewrite HL. apply Hf in Hin. lia.
Qed.

(* C20.  The parallel path gives the very same structure, whatever the order in which the
   stores of the different blocks take effect and whatever the new space contained. *)
Theorem C20_parallel_update : forall o g order junk l s, 0 < g -> length (bk s) = o + 1 ->
  (forall v b, In (v, Some b) l -> b <= o) ->
  Permutation order (all_stores o g l s) ->
  update_par o g order junk l s = Some (update_seq l s).
Proof.
  intros o g order junk l s Hg HL Hf Hp. apply update_par_seq; auto. intros v b Hin. apply Hf in Hin. lia.
Qed.

(* the hypotheses hold for every batch of legal moves in every reachable state *)
Theorem C20_in_histories : forall inc o null n d0 s d due last ms g order junk, 0 < o -> 0 < g ->
  run inc o null n d0 any s d due last ->
  Permutation order (all_stores o g (batch inc o null s d ms) s) ->
  update_par o g order junk (batch inc o null s d ms) s = Some (update_seq (batch inc o null s d ms) s).
Proof.
  intros inc o null n d0 s d due last ms g order junk Ho Hg Hr Hp. destruct (any_run Ho Hr) as (t & G).
  pose proof (G_inv G) as H. apply update_par_seq; auto; [exact (J_len H)|]. rewrite <- (J_len H). exact (@batch_fits inc o null t Ho s d due ms H).
Qed.

(* -- limits ------------------------------------------------------------------------------- *)
Definition of_list (l : list nat) (dflt v : nat) : nat := nth v l dflt.

(* the one-argument get_bucket, in increasing order, forgets an identifier that was already
   returned and is put back into a bucket beyond the open ones *)
Theorem C19_one_argument_loses_refuted : exists o null n d s d' s', 
  next_bucket true o 10 d (make true o null n d) = Ret (Some (0, [0])) s /\
  d' = moved [{| mv_id := 0; mv_next := 5; mv_one_arg := true |}] d /\
  s' = update_seq (batch true o null s d [{| mv_id := 0; mv_next := 5; mv_one_arg := true |}]) s /\
  d' 0 = 5 /\ drains true o d' s' [(1, [1])].
Proof.
  exists 2, 100, 2, (of_list [0; 1] 100). eexists. eexists. eexists. split; [reflexivity|]. split; [reflexivity|]. split; [reflexivity|].
  split; [reflexivity|]. eapply (@drains_next _ _ _ _ 10); [reflexivity|]. eapply (@drains_end _ _ _ _ 10). reflexivity.
Qed.

(* an identifier that moves away and back before it is due comes out twice *)
Theorem C19_repeats_refuted : exists o null n d0 s d due last fuel b L s',
  run true o null n d0 any s d due last /\ next_bucket true o fuel d s = Ret (Some (b, L)) s' /\ ~ NoDup L.
Proof.
  exists 3, 100, 2, (of_list [0; 1] 100). do 4 eexists. exists 10, 1, [1; 1]. eexists. split; [|split].
  - eapply (@run_move _ _ _ _ _ _ _ _ _ _ [{| mv_id := 1; mv_next := 1; mv_one_arg := false |}]);
    [eapply (@run_move _ _ _ _ _ _ _ _ _ _ [{| mv_id := 1; mv_next := 2; mv_one_arg := false |}]);
     [eapply (@run_next _ _ _ _ _ _ _ _ _ _ 10); [eapply (@run_start _ _ _ _ _ _ 0)|]|..]|..]; try reflexivity.
    all: try (repeat constructor; simpl; lia).
    all: try (intros [|[|[|j]]]; unfold of_list; simpl; unfold no_later; lia).
    all: try (repeat constructor; simpl; tauto).
    all: intros m [<-|[]]; repeat split; simpl; unfold no_later; try lia; try discriminate.
  - reflexivity.
  - intros H. inversion H as [|x l H1 H2]. apply H1. now left.
Qed.

(* -- the hypotheses are met ----------------------------------------------------------------- *)
Fixpoint drain_run (fuel k : nat) inc o (d : nat -> nat) (s : bst) : option (list (nat * list nat)) :=
  match k with
  | 0 => None
  | S k => match next_bucket inc o fuel d s with
           | Ret None _ => Some []
           | Ret (Some p) s' => option_map (cons p) (drain_run fuel k inc o d s')
           | _ => None
           end
  end.
Lemma drain_run_ok fuel k inc o d : forall s out, drain_run fuel k inc o d s = Some out -> drains inc o d s out.
Proof.
  induction k as [|k IH]; intros s out E; cbn [drain_run] in E; [discriminate|].
  destruct (next_bucket inc o fuel d s) as [| |[[b L]|] s'] eqn:En; try discriminate.
  - destruct (drain_run fuel k inc o d s') eqn:Ed; [|discriminate]. injection E as <-. eapply drains_next; eauto.
  - injection E as <-. eapply drains_end; eauto.
Qed.
Example ex_d := of_list [3; 7; 3; 0; 12; 100; 7] 100.
Example C19_example_inc : drains true 2 ex_d (make true 2 100 7 ex_d) [(0, [3]); (3, [0; 2]); (7, [1; 6]); (12, [4])].
Proof. apply drain_run_ok with (fuel := 50) (k := 9). vm_compute. reflexivity. Qed.
Example C19_example_dec : drains false 2 ex_d (make false 2 100 7 ex_d) [(12, [4]); (7, [1; 6]); (3, [0; 2]); (0, [3])].
Proof. apply drain_run_ok with (fuel := 50) (k := 9). vm_compute. reflexivity. Qed.
(* a history with a move *)
Example C19_example_move : exists s d due last, run true 2 100 7 ex_d (closer true 100) s d due last /\ last = 0 /\ d 4 = 3 /\ due 4 = true /\
  exists s', next_bucket true 2 20 d s = Ret (Some (3, [0; 2; 4])) s'.
Proof.
  do 4 eexists. split; [eapply (@run_move _ _ _ _ _ _ _ _ _ _ [{| mv_id := 4; mv_next := 3; mv_one_arg := false |}]);
     [eapply (@run_next _ _ _ _ _ _ _ _ _ _ 10); [eapply (@run_start _ _ _ _ _ _ 3)|vm_compute; reflexivity]|..]|].
  - lia.
  - unfold ex_d, of_list. simpl. lia.
  - intros [|[|[|[|[|[|[|[|j]]]]]]]]; unfold ex_d, of_list; simpl; lia.
  - intros [|[|[|[|[|[|[|[|j]]]]]]]]; unfold ex_d, of_list; simpl; lia.
  - intros [|[|[|[|[|[|[|j]]]]]]]; unfold ex_d, of_list; simpl; try lia. destruct j; reflexivity.
  - repeat constructor. simpl. tauto.
  - intros m [<-|[]]. unfold legal, closer, earlier, no_later. cbn [mv_id mv_next mv_one_arg].
    split; [split; [lia|split; [lia|discriminate]]|]. right. left. split; [reflexivity|]. split; [vm_compute; lia|auto].
  - split; [reflexivity|]. split; [reflexivity|]. split; [reflexivity|]. eexists. vm_compute. reflexivity.
Qed.
Example ex_s : bst := {| bk := [[9]; []; [8; 7]]; cur := 0; range := 1; nelm := 3 |}.
Example ex_l : list (nat * option nat) := [(1, Some 2); (2, None); (3, Some 0); (4, Some 2); (5, Some 1)].
Example C20_example : update_par 2 2 (rev (all_stores 2 2 ex_l ex_s)) 77 ex_l ex_s
  = Some {| bk := [[9; 3]; [5]; [8; 7; 1; 4]]; cur := 0; range := 1; nelm := 7 |}.
Proof. reflexivity. Qed.

Print Assumptions C19_next_bucket.
Print Assumptions C19_no_repeats.
Print Assumptions C19_drain.
Print Assumptions C20_update.
Print Assumptions C20_parallel_update.
Print Assumptions C20_in_histories.
Print Assumptions C19_one_argument_loses_refuted.
Print Assumptions C19_repeats_refuted.
