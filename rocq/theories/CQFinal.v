(* Clique counting: DG, and the results for the whole algorithm. *)
From Coq Require Import Permutation Sorted.
From Verif Require Import Base ListUtil ISModel ISSpec SFModel GBModel TCModel TCProofs CQModel CQSpec CQRec CQSetup CQCount CQCliques.

Lemma in_insert x l y : In y (insert x l) <-> y = x \/ In y l.
Proof. induction l as [|a l IH]; simpl; [intuition|]. destruct (x <=? a); simpl; rewrite ?IH; intuition. Qed.
Lemma in_sorted l y : In y (sorted l) <-> In y l.
Proof. unfold sorted. induction l as [|a l IH]; simpl; [tauto|]. rewrite in_insert, IH. intuition. Qed.
Lemma insert_inc x l : ~ In x l -> increasing l -> increasing (insert x l).
Proof.
  unfold increasing. intros Hx. induction 1 as [|a l Hs IH Hf]; simpl; [repeat constructor|]. destruct (Nat.leb_spec x a).
  - assert (x <> a) by (intros ->; apply Hx; now left). constructor; [constructor; auto|]. constructor; [lia|]. rewrite Forall_forall in *. intros y Hy. specialize (Hf y Hy). lia.
  - constructor; [apply IH; intros X; apply Hx; now right|]. rewrite Forall_forall in *. intros y Hy. apply in_insert in Hy as [->|Hy]; auto.
Qed.
Lemma sorted_inc l : NoDup l -> increasing (sorted l).
Proof. unfold sorted. induction 1 as [|a l Ha ND IH]; simpl; [constructor|]. apply insert_inc; auto. intros X. apply Ha. now apply in_sorted. Qed.

Section Final.
  Variable n : nat.
  Variable outn : nat -> list nat.
  Hypothesis HG : sgraph n outn.
  Variable rank : nat -> nat.
  Hypothesis HR : is_rank n rank.
  Variable K : nat.
  Variable filt : bool.
  Definition name : nat -> nat := if filt then (fun v => v) else rank.
  Definition ord : nat -> nat := if filt then rank else (fun v => v).
  Notation dg := (direct n outn K rank filt).

  Lemma packs_iff u v : packs outn K rank u v = true <-> rank u < rank v /\ K - 1 <= length (outn u) /\ K - 1 <= length (outn v).
  Proof. unfold packs. rewrite !Bool.andb_true_iff, Nat.ltb_lt, !Nat.leb_le. tauto. Qed.
  Lemma in_filtered u v : In v (filtered outn K rank u) <-> In v (outn u) /\ rank u < rank v /\ K - 1 <= length (outn u) /\ K - 1 <= length (outn v).
  Proof. unfold filtered. rewrite filter_In, packs_iff. tauto. Qed.
  Lemma relabelled_rank u : u < n -> relabelled n outn K rank (rank u) = sorted (map rank (filtered outn K rank u)).
  Proof.
    intros Hu. unfold relabelled. assert (E : seq 0 n = seq 0 u ++ u :: seq (S u) (n - S u)).
    { replace n with (u + S (n - S u)) at 1 by lia. rewrite seq_app. reflexivity. }
    rewrite E, flat_map_app. cbn [flat_map]. rewrite Nat.eqb_refl.
    assert (X : forall l, (forall i, In i l -> i < n /\ i <> u) -> flat_map (fun i => if rank i =? rank u then sorted (map rank (filter (packs outn K rank i) (outn i))) else []) l = []).
    { induction l as [|i l IH]; intros H; auto. cbn [flat_map]. destruct (H i (or_introl eq_refl)) as [A B]. destruct (Nat.eqb_spec (rank i) (rank u)) as [Er|_].
      - exfalso. apply B. now apply HR.
      - apply IH. intros j Hj. apply H. now right. }
    rewrite !X; [now rewrite app_nil_r| |]; intros i Hi; apply in_seq in Hi; lia.
  Qed.
  Lemma in_relabelled x y : In y (relabelled n outn K rank x) -> exists u v, u < n /\ x = rank u /\ y = rank v /\ In v (filtered outn K rank u).
  Proof.
    unfold relabelled. intros H. apply in_flat_map in H as (u & Hu & H). apply in_seq in Hu. destruct (Nat.eqb_spec (rank u) x) as [<-|]; [|destruct H].
    apply in_sorted, in_map_iff in H as (v & <- & Hv). exists u, v. repeat split; auto. lia.
  Qed.
  Lemma dg_ord v w : In w (dg v) -> ord v < ord w.
  Proof.
    unfold direct, ord. destruct filt; intros H.
    - apply in_filtered in H. tauto.
    - apply in_relabelled in H as (u & v' & _ & -> & -> & H). apply in_filtered in H. tauto.
  Qed.
  Lemma dg_lt v w : v < n -> In w (dg v) -> w < n.
  Proof.
    unfold direct. destruct filt; intros Hv H.
    - apply in_filtered in H as [H _]. now apply (@HG v Hv) in H.
    - apply in_relabelled in H as (u & v' & Hu & -> & -> & H). apply in_filtered in H as [H _]. apply HR. now apply (@HG u Hu) in H.
  Qed.
  Lemma rank_onto x : x < n -> exists u, u < n /\ rank u = x.
  Proof. destruct HR as [A B]. now apply name_onto. Qed.
  Lemma dg_inc v : v < n -> increasing (dg v).
  Proof.
    unfold direct. destruct filt; intros Hv.
    - apply ssort_filter. now apply HG.
    - destruct (rank_onto Hv) as (u & Hu & <-). rewrite relabelled_rank by auto. apply sorted_inc. apply NoDup_map_in.
      + intros a b Ha Hb. apply in_filtered in Ha as [Ha _], Hb as [Hb _]. apply HR; [now apply (@HG u Hu) in Ha|now apply (@HG u Hu) in Hb].
      + apply NoDup_filter, inc_nodup. now apply HG.
  Qed.
  Lemma name_lt u : u < n -> name u < n.
  Proof. unfold name. destruct filt; auto. apply HR. Qed.
  Lemma name_inj u v : u < n -> v < n -> name u = name v -> u = v.
  Proof. unfold name. destruct filt; auto. apply HR. Qed.
  Lemma dg_iff u v : u < n -> v < n -> (In (name v) (dg (name u)) <-> rank u < rank v /\ K - 1 <= length (outn u) /\ K - 1 <= length (outn v) /\ In v (outn u)).
  Proof.
    intros Hu Hv. unfold direct, name. destruct filt; [rewrite in_filtered; tauto|]. rewrite relabelled_rank, in_sorted, in_map_iff by auto. setoid_rewrite in_filtered. split.
    - intros (w & Ew & A & B & C & D). assert (w = v) as -> by (apply HR; auto; now apply (@HG u Hu) in A). tauto.
    - intros (A & B & C & D). exists v. tauto.
  Qed.
  Notation cs := (chains dg K (seq 0 n)).
  Lemma cs_nodup : NoDup cs.
  Proof. apply chains_nodup with (n := n); [apply dg_lt|apply dg_inc|intros x Hx; apply in_seq in Hx; lia|apply seq_NoDup]. Qed.
  Definition vertices_of (c : list nat) : list nat := filter (fun v => has c (name v)) (seq 0 n).
  Theorem cs_cliques : Permutation (map vertices_of cs) (cliques n outn K).
  Proof. exact (@bijection n outn HG rank HR K name name_lt name_inj dg dg_iff ord dg_ord cs_nodup). Qed.
  Theorem cs_counts v : v < n -> occs (fun x => x) (name v) cs = length (filter (fun s => has s v) (cliques n outn K)).
  Proof. exact (@counts n outn HG rank HR K name name_lt name_inj dg dg_iff ord dg_ord cs_nodup v). Qed.
  Lemma good_result count cl : good cs count cl ->
    count = length (cliques n outn K) /\ forall v, v < n -> per_vert rank filt cl v = length (filter (fun s => has s v) (cliques n outn K)).
  Proof.
    intros [A B]. split; [rewrite A, <- (Permutation_length cs_cliques); now rewrite map_length|]. intros v Hv. rewrite <- cs_counts by auto. rewrite <- B.
    unfold per_vert, total, name. destruct filt; reflexivity.
  Qed.
End Final.
