(* Theorems for C94. *)
From Verif Require Import Base ListUtil RTModel RTSpec RTProofs.
Unset Strict Implicit.

Lemma fair_sched n k : forall i, i < n -> count_occ Nat.eq_dec (concat (repeat (seq 0 n) k)) i = k.
Proof.
  intros i Hi. induction k as [|k IH]; auto. cbn [repeat concat]. rewrite count_occ_app, IH. enough (count_occ Nat.eq_dec (seq 0 n) i = 1) by lia.
  apply NoDup_count_occ'; [apply seq_NoDup|apply in_seq; lia].
Qed.
Lemma inserted_exists hash T calls : wf hash (length (rtab T)) (rtab T) -> length (entries (rtab T)) + length calls < length (rtab T) -> exists T2, inserted hash T calls T2.
Proof.
  intros W H. assert (Hm : 0 < length (rtab T)) by lia. set (sched := concat (repeat (seq 0 (length calls)) (3 * length (rtab T)))).
  eexists. apply ins with (sched := sched); [reflexivity|]. intros p Hp. apply In_nth_error in Hp as (i & Hi).
  assert (L : length (pcs (exec calls sched (start hash (rtab T) calls))) = length calls) by apply (Inv_exec Hm H sched (Inv_start Hm W H)).
  assert (Hl : i < length calls) by (rewrite <- L; apply nth_error_Some; congruence). destruct (nth_error calls i) as [kv|] eqn:Ec; [|apply nth_error_None in Ec; lia].
  destruct (wait_free Hm W H (sched := sched) Ec) as (r & R); [unfold sched; now rewrite fair_sched|]. exists r. congruence.
Qed.
Record hinv (hash : nat -> nat) (T : rt) (all : list (nat * nat)) : Prop := {
  v_wf : wf hash (length (rtab T)) (rtab T);
  v_ne : ne T = length (entries (rtab T));
  v_cts : cts T = 0;
  v_room : length (entries (rtab T)) < length (rtab T);
  v_all : forall x, In x (entries (rtab T)) <-> In x all }.
Lemma hinv_insert hash T all calls T2 : wf hash (length (rtab T)) (rtab T) -> length (entries (rtab T)) + length calls < length (rtab T) -> inserted hash T calls T2 ->
  (forall x, In x (entries (rtab T)) <-> In x all) -> ne T + cts T = length (entries (rtab T)) -> hinv hash (update_nelms T2) (all ++ calls) /\ length (rtab T2) = length (rtab T).
Proof.
  intros W H HI Ha Hn. assert (Hm : 0 < length (rtab T)) by lia. destruct HI as [sched s -> F].
  destruct (finished_ok Hm W H F) as (W2 & R2 & S2 & C2). set (s := exec calls sched (start hash (rtab T) calls)) in *.
  assert (L : length (tab s) = length (rtab T)) by apply W2. split; [|exact L]. split; cbn [update_nelms rtab ne cts]; auto.
  - rewrite L. exact W2.
  - lia.
  - lia.
  - intros x. rewrite S2, Ha, in_app_iff. reflexivity.
Qed.
Lemma pow_ge n : n <= 2 ^ Nat.log2_up n.
Proof. destruct n as [|[|n]]; [lia|cbn; lia|]. apply Nat.log2_up_spec. lia. Qed.
Lemma hinv_resize hash T all n o : hinv hash T all -> resized hash T n o -> exists T1, o = Some T1 /\ hinv hash T1 all /\ ne T1 = ne T /\ ne T1 + n < length (rtab T1).
Proof.
  intros V HR. pose proof (v_room V) as Hr. pose proof (v_ne V) as Hn. destruct HR as [HK|HL HE|T1 HL HE HI].
  - exists T. split; auto. split; auto. split; auto. lia.
  - pose proof (pow_ge (10 * (ne T + n))). lia.
  - eexists. split; [reflexivity|]. set (m' := 2 ^ Nat.log2_up (10 * (ne T + n))) in *. pose proof (pow_ge (10 * (ne T + n))) as G. fold m' in G.
    destruct (@hinv_insert hash {| rtab := repeat None m'; ne := 0; cts := cts T |} [] (entries (rtab T)) T1) as [V1 L1]; cbn [rtab ne cts] in *; rewrite ?repeat_length, ?entries_empty; cbn [length]; try lia; auto.
    + apply wf_new.
    + intros x. cbn. tauto.
    + rewrite (v_cts V). reflexivity.
    + rewrite repeat_length in L1. cbn [app] in V1.
      assert (V2 : hinv hash (update_nelms T1) all) by (destruct V1; split; auto; intros x; rewrite v_all0; apply (v_all V)).
      assert (E : ne (update_nelms T1) = ne T).
      { rewrite (v_ne V2), Hn. apply Nat.le_antisymm; (apply NoDup_incl_length; [eapply wf_NoDup; first [exact (v_wf V2)|exact (v_wf V)]|intros x Hx]).
        - apply (v_all V). now apply (v_all V2).
        - apply (v_all V2). now apply (v_all V). }
      split; auto. split; auto. rewrite E. cbn [update_nelms rtab]. lia.
Qed.
Lemma history_inv hash T all : history hash T all -> hinv hash T all.
Proof.
  induction 1 as [x|T all n T1 H IH HR|T all calls T2 H IH Hl HI].
  - assert (P : 0 < 2 ^ Nat.log2_up (11 * x / 10)) by (apply Nat.neq_0_lt_0, Nat.pow_nonzero; lia).
    split; cbn [constructed rtab ne cts]; rewrite ?repeat_length, ?entries_empty; cbn [length In]; auto; try tauto. apply wf_new.
  - destruct (hinv_resize IH HR) as (T' & E & V & _). congruence.
  - apply (@hinv_insert hash T all calls T2); auto; [apply IH|rewrite <- (v_ne IH); exact Hl|apply IH|rewrite (v_ne IH), (v_cts IH); lia].
Qed.

(* the table holds exactly the pairs inserted, each once, also across resizing; ne is their number *)
Theorem C94_content : forall hash T all, history hash T all -> lists_set (entries (rtab T)) all /\ ne T = length (entries (rtab T)).
Proof. intros hash T all H. pose proof (history_inv H) as V. split; [split; [eapply wf_NoDup; apply (v_wf V)|apply (v_all V)]|apply (v_ne V)]. Qed.
(* every lookup ends within as many probes as there are cells, with the right answer *)
Theorem C94_lookup : forall hash T all k fuel, history hash T all -> length (rtab T) <= fuel ->
  (exists l, iterate hash (rtab T) k fuel = Some l /\ NoDup l /\ (forall x, In x l <-> In x all /\ fst x = k) /\ num_appearances hash (rtab T) k fuel = Some (length l)) /\
  (exists b, contains_key hash (rtab T) k fuel = Some b /\ (b = true <-> exists v, In (k, v) all)) /\
  (forall v, exists b, contains_pair hash (rtab T) k v fuel = Some b /\ (b = true <-> In (k, v) all)).
Proof.
  intros hash T all k fuel H Hf. pose proof (history_inv H) as V. pose proof (v_room V) as R. assert (Hm : 0 < length (rtab T)) by lia.
  destruct (lookup_ok Hm (v_wf V) R k Hf) as ((l & L1 & L2 & L3) & N & (b & B1 & B2) & P). split; [|split].
  - exists l. split; auto. split; auto. split; [intros x; rewrite L3, (v_all V); reflexivity|]. rewrite N. f_equal.
    apply Nat.le_antisymm; (apply NoDup_incl_length; [first [exact L2|apply NoDup_filter; eapply wf_NoDup; apply (v_wf V)]|intros x Hx]).
    + apply filter_In in Hx as [X1 X2]. apply L3. split; auto. now apply Nat.eqb_eq.
    + apply L3 in Hx as [X1 X2]. apply filter_In. split; auto. now apply Nat.eqb_eq.
  - exists b. split; auto. rewrite B2. split; intros (v & Hv); exists v; now apply (v_all V).
  - intros v. destruct (P v) as (c & C1 & C2). exists c. split; auto. rewrite C2. apply (v_all V).
Qed.
(* maybe_resize(n) ends, never loses the table, changes neither content nor count, and leaves room for n insertions *)
Theorem C94_resize : forall hash T all n, history hash T all -> (exists o, resized hash T n o) /\
  forall o, resized hash T n o -> exists T1, o = Some T1 /\ lists_set (entries (rtab T1)) all /\ ne T1 = ne T /\ ne T1 + n < length (rtab T1).
Proof.
  intros hash T all n H. pose proof (history_inv H) as V. split.
  - destruct (Nat.le_gt_cases (4 * (ne T + n)) (length (rtab T))) as [C|C]; [eexists; now apply rs_keep|].
    destruct (Nat.eq_dec (2 ^ Nat.log2_up (10 * (ne T + n))) (length (rtab T))) as [E|E]; [eexists; now apply rs_lost|].
    destruct (@inserted_exists hash {| rtab := repeat None (2 ^ Nat.log2_up (10 * (ne T + n))); ne := 0; cts := cts T |} (entries (rtab T))) as (T1 & H1); cbn [rtab].
    + rewrite repeat_length. apply wf_new.
    + rewrite repeat_length, entries_empty. cbn [length]. pose proof (pow_ge (10 * (ne T + n))). pose proof (v_ne V). pose proof (v_room V). lia.
    + eexists. eapply rs_grow; eauto.
  - intros o HR. destruct (hinv_resize V HR) as (T1 & E & V1 & N1 & R1). exists T1. split; auto. split; auto. split; [eapply wf_NoDup; apply (v_wf V1)|apply (v_all V1)].
Qed.
(* concurrent insertions with room: every call ends within 3 m of its own steps, under every schedule; the number of
   calls that return true is the growth of the table; a call that has returned has its pair in the table *)
Theorem C94_insert : forall hash T all calls sched, history hash T all -> ne T + length calls < length (rtab T) ->
  let s := exec calls sched (start hash (rtab T) calls) in
  (forall i, i < length calls -> 3 * length (rtab T) <= count_occ Nat.eq_dec sched i -> exists r, nth_error (pcs s) i = Some (Fin r)) /\
  length (entries (tab s)) = length (entries (rtab T)) + added s /\
  (forall x, In x (entries (tab s)) -> In x all \/ In x calls) /\
  (forall i kv r, nth_error calls i = Some kv -> nth_error (pcs s) i = Some (Fin r) -> In kv (entries (tab s))).
Proof.
  intros hash T all calls sched H Hl s. pose proof (history_inv H) as V. rewrite (v_ne V) in Hl. assert (Hm : 0 < length (rtab T)) by lia.
  destruct (Inv_exec Hm Hl sched (Inv_start Hm (v_wf V) Hl)) as [I _]. fold s in I. split; [|split; [|split]].
  - intros i Hi Hs. destruct (nth_error calls i) as [kv|] eqn:Ec; [|apply nth_error_None in Ec; lia]. exact (wait_free Hm (v_wf V) Hl Ec Hs).
  - apply I.
  - intros x Hx. apply (i_new I) in Hx. apply in_app_iff in Hx as [Hx|Hx]; auto. left. now apply (v_all V).
  - intros i kv r Hc Hp. apply entries_In. exact (i_thr I Hc Hp).
Qed.
(* without reserving: a table for 1 element and one insertion; looking for another key never ends *)
Theorem C94_full_refuted : exists hash T2, inserted hash (constructed 1) [(5, 7)] T2 /\ forall fuel, contains_key hash (rtab T2) 6 fuel = None.
Proof.
  exists (fun k => k). eexists. split; [apply ins with (sched := [0; 0]); [reflexivity|]|].
  - intros p Hp. vm_compute in Hp. destruct Hp as [<-|[]]. eauto.
  - cbn [rtab]. intros fuel. unfold contains_key. change (tab (exec [(5, 7)] [0; 0] (start (fun k => k) (rtab (constructed 1)) [(5, 7)]))) with [Some (5, 7)].
    change (firstIndex (fun k => k) [Some (5, 7)] 6) with 0. induction fuel as [|f IH]; auto.
Qed.

(* two batches with a repeated pair and a collision *)
Example C94_example : exists T, history (fun k => k) T (([] ++ [(1, 4); (1, 5)]) ++ [(1, 4); (9, 2)]) /\ iterate (fun k => k) (rtab T) 1 32 = Some [(1, 4); (1, 5)] /\ ne T = 3 /\ length (rtab T) = 8.
Proof.
  eexists. split; [|split; [|split]].
  - eapply h_insert; [eapply h_insert; [apply (h_new _ 6)|cbn; lia|]| |].
    + apply ins with (sched := [0; 0; 1; 1; 1; 1; 1]); [reflexivity|]. intros p Hp. vm_compute in Hp. destruct Hp as [<-|[<-|[]]]; eauto.
    + vm_compute. lia.
    + apply ins with (sched := [1; 0; 1; 0; 1; 1; 1; 1; 1]); [reflexivity|]. intros p Hp. vm_compute in Hp. destruct Hp as [<-|[<-|[]]]; eauto.
  - vm_compute. reflexivity.
  - vm_compute. reflexivity.
  - vm_compute. reflexivity.
Qed.

Print Assumptions C94_content.
Print Assumptions C94_lookup.
Print Assumptions C94_resize.
Print Assumptions C94_insert.
Print Assumptions C94_full_refuted.
