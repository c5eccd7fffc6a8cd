(* Theorems for C90. *)
From Coq Require Import Permutation Relations.
From Verif Require Import Base ListUtil EMModel SVModel UFSpec LTModel LTProofs LBModel LBSpec LBProofs LBFirst LBRun.
Unset Strict Implicit.

(* every history of batches, every variant: two vertices in the same tree are connected by the inserted edges; every vertex
   has a root, and parents are never larger *)
Theorem C90_sound : forall largest n c o full alter bs s, n <= largest -> batches_ok n bs -> lb_batches largest c o full alter bs s ->
  (forall v, v < n -> bP s v <= v /\ connected (inserted bs) v (bP s v) /\ exists r, root_of (bP s) v r) /\
  (forall u v r, u < n -> v < n -> root_of (bP s) u r -> root_of (bP s) v r -> connected (inserted bs) u v).
Proof.
  intros largest n c o full alter bs s Hn Hb HB. destruct (batches_good Hn Hb HB) as [GP _]. split.
  - intros v Hv. destruct (GP v Hv). split; auto. split; auto. destruct (root_exists GP Hv) as (r & _ & Hr). eauto.
  - intros u v r Hu Hv Ru Rv. eapply rst_trans; [exact (root_conn GP Hu Ru)|]. apply rst_sym. exact (root_conn GP Hv Rv).
Qed.

(* the first batch, with full shortcut and without alter: afterwards two vertices have the same parent exactly when the
   insertions connect them *)
Theorem C90_first_batch : forall largest n c o ups s, n <= largest -> batches_ok n [ups] ->
  c = ParentConnect \/ (c = ExtendedConnect /\ o = RootUpdate) -> lb_batches largest c o true false [ups] s ->
  forall u v, u < n -> v < n -> (bP s u = bP s v <-> connected (inserted [ups]) u v).
Proof.
  intros largest n c o ups s Hn Hb Hopt HB.
  assert (H1 : lb_batch largest c o true false ups lb_init s).
  { inversion HB as [|bs b s0 s' H0 HS Eb]; subst. destruct bs as [|b0 bs]; [|destruct bs; discriminate]. inversion Eb; subst.
    inversion H0 as [|bs' b' x y Hx Hy Ex]; subst; [exact HS|]. destruct bs'; discriminate. }
  unfold inserted. cbn [concat]. rewrite app_nil_r. refine (first_batch Hn _ Hopt H1). intros u v t Hin. apply (Hb ups u v t); auto. now left.
Qed.

(* such a batch ends: there is an execution, no execution has more than n * n rounds that change something, and none gets stuck *)
Theorem C90_first_batch_ends : forall largest n c o ups, n <= largest -> batches_ok n [ups] -> c = ParentConnect \/ (c = ExtendedConnect /\ o = RootUpdate) ->
  (exists s, lb_batches largest c o true false [ups] s) /\
  (forall k E s, lb_loop largest c o true false (inserted [ups]) lb_init k E s true ->
     k <= n * n /\ exists s' ch, lb_round largest c o true false E s E s' ch).
Proof.
  intros largest n c o ups Hn Hb Hopt. destruct (@first_ends largest n c o ups Hn) as [(s & HB) HL]; auto.
  { intros u v t Hin. apply (Hb ups u v t); auto. now left. }
  split.
  - exists s. apply (@lbs_snoc largest c o true false [] ups lb_init s); [constructor|exact HB].
  - intros k E s1 H1. unfold inserted in H1. cbn [concat] in H1. rewrite app_nil_r in H1. destruct (HL k E s1 H1) as (A & _ & B). auto.
Qed.

(* no variant keeps the components over several batches: for each there is a history after which the ends of an inserted edge
   are in different trees *)
Definition loses (largest n : nat) c o full alter : Prop :=
  exists bs s u v ru rv, batches_ok n bs /\ lb_batches largest c o full alter bs s /\ In (u, v) (inserted bs) /\
    root_of (bP s) u ru /\ root_of (bP s) v rv /\ ru <> rv.
Lemma loses_by largest n c o full alter bs u v :
  forallb (forallb (fun e => (fst e <? n) && (snd e <? n))) bs = true -> existsb (existsb (fun e => (fst e =? u) && (snd e =? v))) bs = true ->
  split_by largest c o full alter bs u v = true -> loses largest n c o full alter.
Proof.
  intros Hb Hi Hs. unfold split_by in Hs. destruct (runs largest c o full alter bs) as [s|] eqn:Er; [|discriminate].
  apply andb_true_iff in Hs as [Hs Hv]. apply andb_true_iff in Hs as [Hne Hu]. apply Nat.eqb_eq in Hu, Hv. apply negb_true_iff, Nat.eqb_neq in Hne.
  exists (map ins bs), s, u, v, (Nat.iter 6 (bP s) u), (Nat.iter 6 (bP s) v). split; [|split; [now apply runs_ok|split; [|split; [|split]]]].
  - intros b x y t Hin Hx. apply in_map_iff in Hin as (E & <- & HE). rewrite forallb_forall in Hb. specialize (Hb E HE). rewrite forallb_forall in Hb.
    unfold ins in Hx. apply in_map_iff in Hx as (e & Ee & He). specialize (Hb e He). inversion Ee; subst. cbn in Hb. apply andb_true_iff in Hb as [A B].
    apply Nat.ltb_lt in A, B. auto.
  - apply existsb_exists in Hi as (E & HE & Hi). apply existsb_exists in Hi as ([x y] & He & Hi). cbn in Hi. apply andb_true_iff in Hi as [A B].
    apply Nat.eqb_eq in A, B. subst x y. apply inserted_in. exists (ins E). split; [now apply in_map|]. unfold ins. apply in_map_iff. exists (u, v). auto.
  - exists 6. auto.
  - exists 6. auto.
  - exact Hne.
Qed.
Theorem C90_later_batches_refuted : forall c o full alter largest, 8 <= largest -> loses largest 8 c o full alter.
Proof.
  intros c o full alter largest H8. destruct (Nat.le_exists_sub 8 largest H8) as (q & -> & _). rewrite Nat.add_comm.
  set (h := [[(5, 6)]; [(4, 5)]; [(4, 7)]; [(1, 4)]; [(7, 0)]; [(6, 0)]; [(5, 3)]]).
  destruct c.
  - destruct alter; [destruct o|].
    + apply (@loses_by (8 + q) 8 SimpleConnect SimpleUpdate full true [[(2, 1)]; [(0, 2)]] 2 1); destruct full; vm_compute; reflexivity.
    + apply (@loses_by (8 + q) 8 SimpleConnect RootUpdate full true [[(2, 0)]; [(1, 2)]] 1 2); destruct full; vm_compute; reflexivity.
    + apply (@loses_by (8 + q) 8 SimpleConnect o full false [[(1, 2); (0, 2)]] 1 2); destruct o, full; vm_compute; reflexivity.
  - destruct o.
    + apply (@loses_by (8 + q) 8 ParentConnect SimpleUpdate full alter h 1 4); destruct full, alter; vm_compute; reflexivity.
    + apply (@loses_by (8 + q) 8 ParentConnect RootUpdate full alter h 5 3); destruct full, alter; vm_compute; reflexivity.
  - destruct o.
    + apply (@loses_by (8 + q) 8 ExtendedConnect SimpleUpdate full alter h 1 4); destruct full, alter; vm_compute; reflexivity.
    + apply (@loses_by (8 + q) 8 ExtendedConnect RootUpdate full alter h 5 3); destruct full, alter; vm_compute; reflexivity.
Qed.

(* a first batch that connects 1, 2, 3 and leaves 0 alone *)
Example C90_example : exists s, lb_batches 4 ParentConnect RootUpdate true false [ins [(3, 2); (2, 1)]] s /\ map (bP s) [0; 1; 2; 3] = [0; 1; 1; 1] /\ batches_ok 4 [ins [(3, 2); (2, 1)]].
Proof.
  assert (X : match runs 4 ParentConnect RootUpdate true false [[(3, 2); (2, 1)]] with Some s => map (bP s) [0; 1; 2; 3] = [0; 1; 1; 1] | None => False end) by (vm_compute; reflexivity).
  destruct (runs 4 ParentConnect RootUpdate true false [[(3, 2); (2, 1)]]) as [s|] eqn:E; [|destruct X]. exists s. split; [exact (runs_ok E)|]. split; [exact X|].
  intros b u v t [<-|[]] [Hx|[Hx|[]]]; inversion Hx; lia.
Qed.

Print Assumptions C90_sound.
Print Assumptions C90_first_batch.
Print Assumptions C90_first_batch_ends.
Print Assumptions C90_later_batches_refuted.
