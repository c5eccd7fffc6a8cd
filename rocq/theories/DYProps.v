(* C89: the dynamic array of the bucketing structure, over histories of operations. *)
From Coq Require Import Permutation.
From Verif Require Import Base DYModel DYSpec DYProofs.
Unset Strict Implicit.

(* After any history the array holds the list that the operations describe; the history is undefined iff some
   push_back or insert has no room. *)
Theorem C89_history : forall E (h0 : heap E) F st l c ops, started h0 F st l c -> Forall op_ok ops ->
  match sem_run ops (l, c) with
  | Some (l', c') => exists st', run ops st = Some st' /\ holds st' l' c'
  | None => run ops st = None
  end.
Proof.
  intros E h0 F st l c ops Hs Ho. apply started_ok in Hs as [Hr Hw]. pose proof (@run_ok E h0 F ops st l c Ho Hr Hw) as H.
  destruct (sem_run ops (l, c)) as [[l' c']|]; auto. destruct H as (st' & E' & R & _). exists st'. split; auto. now apply rep_holds.
Qed.
Print Assumptions C89_history.
(* So appending through copyIn or the bucket operations is always defined, *)
Theorem C89_append_defined : forall E (h0 : heap E) F st l c ops, started h0 F st l c -> Forall op_ok ops ->
  (forall o, In o ops -> match o with OPush _ | OInsert _ _ => False | _ => True end) -> exists st', run ops st = Some st'.
Proof.
  intros E h0 F st l c ops Hs Ho Hn. pose proof (C89_history Hs Ho) as H.
  assert (G : forall ops s, (forall o, In o ops -> match o with OPush _ | OInsert _ _ => False | _ => True end) -> exists s' : list E * nat, sem_run ops s = Some s').
  { unfold sem_run. clear. induction ops as [|o ops IH]; intros s Hn; cbn [fold_left]; [eauto|]. specialize (Hn o (or_introl eq_refl)) as Ho.
    destruct s as [l c]. destruct o; cbn [sem] in *; try contradiction; apply IH; intros; apply Hn; now right. }
  destruct (G ops (l, c) Hn) as ([l' c'] & E'). rewrite E' in H. destruct H as (st' & H & _). eauto.
Qed.
Print Assumptions C89_append_defined.
(* but push_back alone is not: it does not grow the array. *)
Theorem C89_push_back_refuted : forall E (h : heap E) v, run [OPush v] (h, dyn_arr0) = None.
Proof. reflexivity. Qed.
Print Assumptions C89_push_back_refuted.

(* No memory is lost, and no memory of the caller freed or changed (except the block given to the array, which is not
   freed): beyond the blocks of the start only the array's is allocated, and none after del, which may be repeated. *)
Theorem C89_memory : forall E (h0 : heap E) F st l c ops h d, started h0 F st l c -> Forall op_ok ops -> run ops st = Some (h, d) ->
  (forall b, length h0 <= b -> (live h b <-> arr d = Some b)) /\ (forall b, F = Some b -> live h b) /\
  (forall b, b < length h0 -> F <> Some b -> nth_error h b = nth_error h0 b) /\
  exists h' d', del (h, d) = Some (h', d') /\ (forall b, length h0 <= b -> ~ live h' b) /\ (forall b, F = Some b -> live h' b) /\
    (forall b, b < length h0 -> F <> Some b -> nth_error h' b = nth_error h0 b) /\ del (h', d') = Some (h', d').
Proof.
  intros E h0 F st l c ops h d Hs Ho E'. apply started_ok in Hs as [Hr Hw]. pose proof (@run_ok E h0 F ops st l c Ho Hr Hw) as H.
  destruct (sem_run ops (l, c)) as [[l' c']|]; [|congruence]. destruct H as (st' & E2 & R & O). rewrite E' in E2. inversion E2; subst st'.
  pose proof O as (_ & O2 & O3 & O4 & _). split; auto. split; [intros b Hb; apply (O3 b Hb)|]. split; auto. exact (del_ok R O).
Qed.
Print Assumptions C89_memory.

(* Growing copies at most two elements per element appended. *)
Theorem C89_cost : forall E (h0 : heap E) F st l c ops st', started h0 F st l c -> (forall s n, ~ In (OResize _ s n) ops) -> run ops st = Some st' ->
  moved (snd st') <= length l + 2 * total_appended ops.
Proof.
  intros E h0 F st l c ops st' Hs Hn Hr. apply run_cost in Hr; auto. assert (moved (snd st) + phi (snd st) <= length l); [|lia].
  destruct Hs; unfold phi; cbn; lia.
Qed.
Print Assumptions C89_cost.

(* to_seq returns the elements, but gives up the array's block without freeing it and keeps the capacity: appending to
   the array afterwards is undefined as long as the elements would fit. *)
Theorem C89_to_seq : forall E (h0 : heap E) F st l c ops l' c' s, started h0 F st l c -> Forall op_ok ops -> sem_run ops (l, c) = Some (l', c') -> 0 < c' ->
  run ops st = Some s -> exists s', to_seq s = Some (l', s') /\ fst s' = fst s /\ arr (snd s') = None /\
    (forall v, push_back v s' = None) /\
    (forall s1 s2 f, sched_ok s2 -> 0 < length f <= c' -> copyIn s1 s2 f s' = None).
Proof.
  intros E h0 F st l c ops l' c' s Hs Ho Hsem Hc Hrun. apply started_ok in Hs as [Hr Hw]. pose proof (@run_ok E h0 F ops st l c Ho Hr Hw) as H.
  rewrite Hsem in H. destruct H as (st' & E2 & R & O). rewrite Hrun in E2. inversion E2; subst st'.
  destruct (to_seq_ok R Hc) as ([h d] & Et & Eh & Ea & Es & Ec). cbn [fst snd] in *. exists (h, d). split; auto. split; auto. split; auto. split.
  - intros v. unfold push_back. rewrite Ea. reflexivity.
  - intros s1 s2 f H2 Hf. unfold copyIn, resize. rewrite Ec, Es. destruct (Nat.ltb_spec c' (length f + 0)); [lia|]. rewrite Ea.
    specialize (H2 (length f)). destruct (s2 (length f)) as [|i o] eqn:Eo; [apply Permutation_length in H2; rewrite seq_length in H2; simpl in H2; lia|].
    unfold fill_loop. cbn [fold_left]. assert (G : forall o, fold_left (fun (h : option (heap E)) i => match h with None => None | Some h => match nth_error f i with None => None | Some v => store h None (size d + i) v end end) o None = None)
      by (induction o0; simpl; auto). destruct (nth_error f i); cbn [store]; rewrite G; reflexivity.
Qed.
Print Assumptions C89_to_seq.
Theorem C89_to_seq_leak_refuted : exists (h : heap nat) d l h' d', run [OCopyIn (seq 0) (seq 0) [5; 6]] (dyn_arr1 [] 3) = Some (h, d) /\ arr d = Some 0 /\
  to_seq (h, d) = Some (l, (h', d')) /\ l = [5; 6] /\ live h' 0 /\ arr d' = None.
Proof. do 5 eexists. split; [reflexivity|]. split; [reflexivity|]. split; [reflexivity|]. split; [reflexivity|]. split; [|reflexivity]. eexists. reflexivity. Qed.
Print Assumptions C89_to_seq_leak_refuted.

(* del does not reset the array: appending after it writes to freed memory. *)
Theorem C89_del_reuse_refuted : forall E (h0 : heap E) s v, 0 < s -> exists st, del (dyn_arr1 h0 s) = Some st /\ push_back v st = None.
Proof.
  intros E h0 s v Hs. unfold dyn_arr1, new_array, del, free_array. cbn [alloc arr capacity size].
  rewrite nth_error_app2, Nat.sub_diag by lia. cbn [nth_error]. rewrite repeat_length, Nat.eqb_refl. eexists. split; [reflexivity|].
  unfold push_back, store. cbn [arr size]. rewrite nth_error_lset_same by (rewrite app_length; simpl; lia). reflexivity.
Qed.
Print Assumptions C89_del_reuse_refuted.

(* Non-vacuity: the caller's block, an operation of each kind, schedules that are not the sequential one. *)
Example C89_sched : sched_ok (fun n => rev (seq 0 n)).
Proof. intros n. apply Permutation_sym, Permutation_rev. Qed.
Example C89_started : started [Some [Some 7; None; None]] (Some 0) ([Some [Some 7; None; None]], dyn_arr4 (Some 0) 1 3 false) [7] 3.
Proof. exact (@started4 nat [Some [Some 7; None; None]] 0 [7] [None; None] eq_refl). Qed.
Example C89_run : sem_run [OPush 8; OInsert 1 0; OCopyIn (seq 0) (fun n => rev (seq 0 n)) [9]; OClear _; OCopyIn (seq 0) (seq 0) [4; 5]; OBucket (seq 0) (fun n => rev (seq 0 n)) [6]] ([7], 3) = Some ([4; 5; 6], 3) /\
  option_map (fun st => (nth 0 (fst st) None, arr (snd st))) (run [OPush 8; OInsert 1 0; OCopyIn (seq 0) (fun n => rev (seq 0 n)) [9]; OClear _; OCopyIn (seq 0) (seq 0) [4; 5]; OBucket (seq 0) (fun n => rev (seq 0 n)) [6]] ([Some [Some 7; None; None]], dyn_arr4 (Some 0) 1 3 false))
  = Some (Some [Some 4; Some 5; Some 6], Some 0).
Proof. split; reflexivity. Qed.
Example C89_grow : exists h d, run [OCopyIn (seq 0) (seq 0) [4; 5]; OBucketPush (seq 0) 6] ([Some [Some 7; None]], dyn_arr4 (Some 0) 1 2 false) = Some (h, d) /\
  arr d = Some 1 /\ moved d = 1 /\ size d = 4 /\ alloc d = true /\ map (load h (arr d)) (seq 0 5) = [Some 7; Some 4; Some 5; Some 6; None].
Proof. do 2 eexists. split; [vm_compute; reflexivity|]. repeat split; vm_compute; reflexivity. Qed.
