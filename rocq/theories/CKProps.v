(* C82: CoSimRank. *)
From Verif Require Import Base ListUtil SIModel SIProofs MOSpec MOModel MOProofs PRSpec PRModel PRProofs PRLoops CKSpec CKModel CKProofs.
From Coq Require Import QArith Qcanon.
Local Open Scope nat_scope.
Unset Strict Implicit.

Theorem C82_edgemap n outs ins c eps v u max_iters :
  transposes n outs ins -> v < n -> u < n ->
  cut_similarity n outs c eps v u max_iters (CoSimRank_edgeMap n outs ins c eps v u max_iters).
Proof.
  intros Ht Hv Hu. unfold CoSimRank_edgeMap. rewrite <- (@sim_0 n outs c v u Hv Hu).
  change (unit_at n v) with (walker n outs v 0). change (unit_at n u) with (walker n outs u 0).
  assert (X : forall w s, s < n -> nth s (only n w) false = false -> at_ (walker n outs w 0) s = 0%Qc).
  { intros w s Hs E. unfold only in E. rewrite nth_map_seq in E by auto. cbn [walker]. unfold start_at. rewrite at_map by auto. now rewrite E. }
  destruct (@em_ok n outs ins Ht c eps v u Hv Hu max_iters 0 (only n v) (only n u) (X v) (X u)) as [(j & J1 & J2 & J3 & J4)|[J1 J2]].
  - left. exists j. split; [lia|]. split; [exact J2|]. split; [intros i Hi; apply J3; lia|exact J4].
  - right. split; [intros i Hi; apply J1; lia|exact J2].
Qed.

Theorem C82_undirected n outs c eps v u max_iters :
  transposes n outs outs -> v < n -> u < n ->
  exists r, CoSimRank n outs c eps v u max_iters = Some r /\ cut_similarity n outs c eps v u max_iters r.
Proof.
  intros Ht Hv Hu. unfold CoSimRank. rewrite <- (@sim_0 n outs c v u Hv Hu).
  change (unit_at n v) with (walker n outs v 0). change (unit_at n u) with (walker n outs u 0).
  destruct (@dense_ok n outs c eps v u Hv Hu max_iters Ht 0) as (r & E & [(j & J1 & J2 & J3 & J4)|[J1 J2]]); exists r; split; auto.
  - left. exists j. split; [lia|]. split; [exact J2|]. split; [intros i Hi; apply J3; lia|exact J4].
  - right. split; [intros i Hi; apply J1; lia|exact J2].
Qed.

Theorem C82_error n outs ins c v u K N :
  transposes n outs ins -> v < n -> u < n -> (0 <= c)%Qc -> (c <= 1)%Qc -> K <= N ->
  (similarity n outs c u v K <= similarity n outs c u v N)%Qc /\
  ((1 - c) * (similarity n outs c u v N - similarity n outs c u v K) <= qpow c (S K))%Qc.
Proof.
  intros Ht Hv Hu Hc Hc1 HK. replace N with (K + (N - K)) by lia.
  destruct (@tail_bounds n outs ins Ht c v u Hv Hu K (N - K) Hc Hc1) as [B1 B2].
  pose proof (@qpow_nonneg c (S (K + (N - K))) Hc) as P.
  split.
  - revert B1. generalize (similarity n outs c u v K), (similarity n outs c u v (K + (N - K))). intros a b B. qcl.
  - eapply Qcle_trans; [exact B2|]. revert P. generalize (qpow c (S K)), (qpow c (S (K + (N - K)))). intros a b B. qcl.
Qed.

(* The premises are met: the triangle, the same vertex twice *)
Definition tri (v : nat) : list nat := match v with 0 => [1; 2] | 1 => [0; 2] | 2 => [0; 1] | _ => [] end.
Lemma tri_ok : transposes 3 tri tri.
Proof.
  split; [|split].
  - intros s d Hs Hd. destruct s as [|[|[|s]]], d as [|[|[|d]]]; try lia; reflexivity.
  - intros s d Hs Hd. destruct s as [|[|[|s]]]; cbn in Hd; intuition lia.
  - intros s d Hs Hd. destruct d as [|[|[|d]]]; cbn in Hd; intuition lia.
Qed.
Example C82_run : match CoSimRank_edgeMap 3 tri tri damping_default (Q2Qc (1 # 4)) 0 1 100 with
  | (s, nv, _) => (Qc_eq_bool s (similarity 3 tri damping_default 1 0 5), Qc_eq_bool s 0, Qc_eq_bool (at_ nv 0) (Q2Qc (5 # 16))) end = (true, false, true).
Proof. vm_compute. reflexivity. Qed.

(* The stopping rule looks at the walks, not at the terms that are left: with the default parameters the program returns
   for a vertex of the triangle and itself a similarity that 30 of the 100 iterations allowed would exceed by more
   than 1/30, although epsilon is 1/1000000 *)
Theorem C82_early_stop_refuted :
  exists outs, transposes 3 outs outs /\
    match CoSimRank_edgeMap 3 outs outs damping_default eps_default 0 0 max_iters_default, CoSimRank 3 outs damping_default eps_default 0 0 max_iters_default with
    | (s, _, _), Some (s', _, _) => s = s' /\ (s + Q2Qc (1 # 30) < similarity 3 outs damping_default 0 0 30)%Qc
    | _, None => False
    end.
Proof.
  exists tri. split; [exact tri_ok|].
  assert (X : match CoSimRank_edgeMap 3 tri tri damping_default eps_default 0 0 max_iters_default, CoSimRank 3 tri damping_default eps_default 0 0 max_iters_default with
    | (s, _, _), Some (s', _, _) => Qc_eq_bool s s' && (if Qclt_le_dec (s + Q2Qc (1 # 30))%Qc (similarity 3 tri damping_default 0 0 30) then true else false)
    | _, None => false end = true) by (vm_compute; reflexivity).
  destruct (CoSimRank_edgeMap _ _ _ _ _ _ _ _) as [[s a] b], (CoSimRank _ _ _ _ _ _ _) as [[[s' a'] b']|]; [|discriminate].
  apply andb_true_iff in X as [X1 X2]. split; [now apply Qc_eq_bool_correct|]. destruct (Qclt_le_dec _ _); [auto|discriminate].
Qed.

(* CoSimRank follows the edges of a directed graph backwards: here walks from 0 and 1 meet at 2 after one step, and it returns 0 *)
Theorem C82_directed_refuted :
  exists n outs ins, transposes n outs ins /\
    match CoSimRank n outs damping_default eps_default 0 1 3, CoSimRank_edgeMap n outs ins damping_default eps_default 0 1 3 with
    | Some (s, _, _), (s', _, _) => s = 0%Qc /\ (damping_default <= s')%Qc
    | None, _ => False
    end.
Proof.
  exists 3, (fun v => match v with 0 => [2] | 1 => [2] | 2 => [0] | _ => [] end), (fun v => match v with 0 => [2] | 2 => [0; 1] | _ => [] end). split.
  - split; [|split].
    + intros s d Hs Hd. destruct s as [|[|[|s]]], d as [|[|[|d]]]; try lia; reflexivity.
    + intros s d Hs Hd. destruct s as [|[|[|s]]]; cbn in Hd; intuition lia.
    + intros s d Hs Hd. destruct d as [|[|[|d]]]; cbn in Hd; intuition lia.
  - set (o := fun v : nat => match v with 0 => [2] | 1 => [2] | 2 => [0] | _ => [] end). set (i := fun v : nat => match v with 0 => [2] | 2 => [0; 1] | _ => [] end).
    assert (X : match CoSimRank 3 o damping_default eps_default 0 1 3, CoSimRank_edgeMap 3 o i damping_default eps_default 0 1 3 with
      | Some (s, _, _), (s', _, _) => Qc_eq_bool s 0 && (if Qclt_le_dec s' damping_default then false else true) | None, _ => false end = true) by (vm_compute; reflexivity).
    destruct (CoSimRank _ _ _ _ _ _ _) as [[[s a] b]|]; [|discriminate]. destruct (CoSimRank_edgeMap _ _ _ _ _ _ _ _) as [[s' a'] b'].
    apply andb_true_iff in X as [X1 X2]. split; [now apply Qc_eq_bool_correct|]. destruct (Qclt_le_dec _ _); [discriminate|auto].
Qed.

Print Assumptions C82_edgemap.
Print Assumptions C82_undirected.
Print Assumptions C82_error.
Print Assumptions C82_early_stop_refuted.
Print Assumptions C82_directed_refuted.
