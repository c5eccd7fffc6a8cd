(* C35, C36: the calls of the concurrent union-find end. *)
From Verif Require Import Base UFSpec UFModel UFSys UFProps UFWait.
Unset Strict Implicit.

(* C35.  For every strategy without locks and hooks: under any interleaving with any other calls,
   a call has returned once it has taken wait_free_steps n steps of its own, whatever the other
   calls do and even if they stop. *)
Theorem C35_calls_end : forall n mx f o (P0 : nat -> nat) (ups : list update) (sched : list nat) t,
  no_waiting o -> (forall x, P0 x <= x) -> in_range n ups ->
  t < length ups -> wait_free_steps n <= count_occ Nat.eq_dec sched t ->
  exists r, returned (exec n sched (init P0 (map (run_update mx f o) ups))) t r.
Proof. intros. now apply updates_return. Qed.
Print Assumptions C35_calls_end.

(* the strategies with hooks (UniteND) and with locks (UniteRemLock) do not have this property: a
   call that has been stopped inside its critical section keeps another one waiting forever *)
Lemma spin n s t p : exec n (repeat t p) s = s -> forall k, exec n (repeat t (k * p)) s = s.
Proof.
  intros H. induction k as [|k IH]; auto. simpl. rewrite repeat_app. unfold exec in *. rewrite fold_left_app, H. exact IH.
Qed.
Theorem C35_waiting_refuted : forall o, o = UND \/ (exists s, o = URemLock s) ->
  exists n mx f ups t, in_range n ups /\ t < length ups /\
    forall k, exists sched, k <= count_occ Nat.eq_dec sched t /\
      ~ exists r, returned (exec n sched (init (fun x => x) (map (run_update mx f o) ups))) t r.
Proof.
  intros o Ho. exists 2, 99, FindNaive, [Insert 1 0; Insert 1 0], 1. split.
  { intros x. simpl. intuition subst; simpl; lia. }
  split; [simpl; lia|]. intros k.
  assert (X : forall pre p s0 th, s0 = exec 2 pre (init (fun x => x) (map (run_update 99 FindNaive o) [Insert 1 0; Insert 1 0])) ->
    nth_error (snd s0) 1 = Some th -> is_ret th = false -> exec 2 (repeat 1 (S p)) s0 = s0 ->
    exists sched, k <= count_occ Nat.eq_dec sched 1 /\
      ~ exists r, returned (exec 2 sched (init (fun x => x) (map (run_update 99 FindNaive o) [Insert 1 0; Insert 1 0]))) 1 r).
  { intros pre p s0 th Es Hth Hr Hp. exists (pre ++ repeat 1 (k * S p)). split.
    - rewrite count_occ_app. replace (count_occ Nat.eq_dec (repeat 1 (k * S p)) 1) with (k * S p); [nia|].
      clear. induction (k * S p) as [|j IH]; simpl; auto.
    - unfold exec at 1. rewrite fold_left_app. fold (exec 2 pre (init (fun x => x) (map (run_update 99 FindNaive o) [Insert 1 0; Insert 1 0]))).
      rewrite <- Es. fold (exec 2 (repeat 1 (k * S p)) s0). rewrite (spin Hp). intros [r H]. unfold returned in H.
      rewrite Hth in H. injection H as ->. discriminate. }
  destruct Ho as [->|(sp & ->)].
  - eapply (X (repeat 0 8 ++ repeat 1 7) 6); [reflexivity|vm_compute; reflexivity|reflexivity|]. vm_compute. reflexivity.
  - eapply (X (repeat 0 7 ++ repeat 1 6) 5); [reflexivity|vm_compute; reflexivity|reflexivity|]. vm_compute. reflexivity.
Qed.
Print Assumptions C35_waiting_refuted.

(* C36.  Both phases of the component labellings end: once every call has taken
   wait_free_steps n steps, in any interleaving, all have returned *)
Theorem C36_phases_end : forall n mx f o (E : list (nat * nat)) p sched1 sched2,
  no_waiting o -> edges_in_range n E -> (exists f', p = label_vertex f') \/ p = find_compress ->
  (forall t, t < length E -> wait_free_steps n <= count_occ Nat.eq_dec sched1 t) ->
  (forall t, t < n -> wait_free_steps n <= count_occ Nat.eq_dec sched2 t) ->
  let s1 := exec n sched1 (init (fun x => x) (map (fun e => unite mx f o (fst e) (snd e)) E)) in
  let s2 := exec n sched2 (init (par (fst s1)) (label_pass n p)) in
  all_returned s1 (length E) /\ all_returned s2 n.
Proof.
  intros n mx f o E p sched1 sched2 Ho HE Hp H1 H2 s1 s2.
  assert (Er : map (fun e => unite mx f o (fst e) (snd e)) E = map (run_update mx f o) (map (fun e => Insert (fst e) (snd e)) E)).
  { rewrite map_map. reflexivity. }
  assert (Hno : no_splice_atomic o) by (destruct o; simpl in Ho; split; congruence).
  assert (Hr : in_range n (map (fun e => Insert (fst e) (snd e)) E)) by now apply in_range_edges.
  split.
  - intros t Ht. unfold s1. rewrite Er. apply C35_calls_end; auto. now rewrite map_length.
  - intros t Ht. unfold s2. apply labels_return; auto. unfold s1. rewrite Er.
    apply (@C35_no_fault_and_sound n mx f o (fun x => x) _ sched1); auto.
Qed.
Print Assumptions C36_phases_end.

(* a schedule that gives every call enough steps *)
Definition enough (n k : nat) : list nat := flat_map (fun t => repeat t (wait_free_steps n)) (seq 0 k).
Lemma enough_ok n k t : t < k -> wait_free_steps n <= count_occ Nat.eq_dec (enough n k) t.
Proof.
  intros Ht. unfold enough. assert (Hin : In t (seq 0 k)) by (apply in_seq; lia). induction (seq 0 k) as [|a l IH]; [destruct Hin|].
  cbn [flat_map]. rewrite count_occ_app. destruct Hin as [->|Hin]; [|specialize (IH Hin); lia].
  assert (X : forall b, count_occ Nat.eq_dec (repeat t b) t = b).
  { induction b as [|b IHb]; auto. cbn [repeat]. rewrite count_occ_cons_eq by auto. now rewrite IHb. }
  rewrite X. lia.
Qed.
(* so hypotheses of C36 and C35 can be met for every graph *)
Theorem C36_labels_exist : forall n mx (G : list (nat * nat)) (pred : nat * nat -> bool), edges_in_range n G ->
  exists sched1 sched2,
  let E := filter pred G in
  let s1 := exec n sched1 (init (fun x => x) (map (fun e => unite mx FindCompress USimple (fst e) (snd e)) E)) in
  let s2 := exec n sched2 (init (par (fst s1)) (label_pass n find_compress)) in
  all_returned s1 (length E) /\ all_returned s2 n.
Proof.
  intros n mx G pred HG. exists (enough n (length (filter pred G))), (enough n n).
  apply C36_phases_end; simpl; auto.
  - intros u v H. apply filter_In in H as [H _]. auto.
  - intros t Ht. now apply enough_ok.
  - intros t Ht. now apply enough_ok.
Qed.
Print Assumptions C36_labels_exist.

(* hypotheses met: the batch of C35 with every strategy without waiting, one call after the other *)
Example C35_calls_end_example : in_range 5 ex_ups /\ no_waiting UUnite /\ no_waiting (URemCAS HalveOne) /\
  forall t, t < 4 -> wait_free_steps 5 <= count_occ Nat.eq_dec (enough 5 4) t.
Proof.
  split; [|split; [exact I|split; [discriminate|intros t Ht; now apply enough_ok]]].
  intros x. simpl. intuition subst; simpl; lia.
Qed.
