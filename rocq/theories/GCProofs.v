(* Proofs for C40. *)
From Coq Require Import ZArith Permutation.
From Verif Require Import Base ListUtil VSModel VSSpec VSProofs VSProps EMModel EMSpec EMModes BKSpec BKProofs KCSpec KCProofs CDModel CDProofs GCModel GCSpec.

Definition taken (seen : list (option nat)) (i : nat) : Prop := In (Some i) seen.
Lemma pick_ok seen : first_free (length seen) (taken seen) (pick_color seen).
Proof.
  unfold pick_color. destruct (Nat.eqb_spec (length seen) 0) as [E|E]; [right; left; auto|].
  set (t := fun i => existsb (fun c : option nat => match c with Some c => c =? i | None => false end) seen).
  assert (Ht : forall i, t i = true <-> taken seen i).
  { intros i. unfold t. rewrite existsb_exists. split.
    - intros ([c|] & Hc & Ec); [|discriminate]. apply Nat.eqb_eq in Ec. now subst.
    - intros H. exists (Some i). split; auto. apply Nat.eqb_refl. }
  assert (HF : forall k s, match find (fun i => negb (t i)) (seq s k) with
            | Some i => s <= i < s + k /\ ~ taken seen i /\ forall j, s <= j < i -> taken seen j
            | None => forall j, s <= j < s + k -> taken seen j end).
  { induction k as [|k IH]; intros s; simpl; [lia|]. destruct (t s) eqn:Es; simpl.
    - specialize (IH (S s)). destruct (find _ _) as [i|].
      + destruct IH as (A & B & C). split; [lia|]. split; auto. intros j Hj. destruct (Nat.eq_dec j s) as [->|]; [now apply Ht|apply C; lia].
      + intros j Hj. destruct (Nat.eq_dec j s) as [->|]; [now apply Ht|apply IH; lia].
    - split; [lia|]. split; [|lia]. rewrite <- Ht. now rewrite Es. }
  specialize (HF (length seen) 0). fold t. destruct (find _ _) as [i|].
  - left. destruct HF as (A & B & C). split; [lia|]. split; auto. intros j Hj. apply C. lia.
  - right; right. split; [lia|]. split; auto. intros j Hj. apply HF. lia.
Qed.
Lemma first_free_ext deg t t' c : (forall i, t i <-> t' i) -> first_free deg t c -> first_free deg t' c.
Proof.
  intros E [(A & B & C)|[A|(A & B & C)]].
  - left. split; auto. split; [rewrite <- E; auto|]. intros i Hi. apply E; auto.
  - right; left; auto.
  - right; right. split; auto. split; auto. intros i Hi. apply E; auto.
Qed.
Lemma first_free_unique deg t c c' : first_free deg t c -> first_free deg t c' -> c = c'.
Proof.
  intros [(A & B & C)|[[A B]|(A & B & C)]] [(A' & B' & C')|[[A' B']|(A' & B' & C')]]; try lia.
  - destruct (Nat.lt_trichotomy c c') as [H|[H|H]]; auto; exfalso; eauto.
  - exfalso. apply B. apply B'. auto.
  - exfalso. apply B'. apply B. auto.
Qed.
Lemma pick_le seen : pick_color seen <= length seen + 1.
Proof. destruct (pick_ok seen) as [(A & _)|[[A ->]|(_ & _ & ->)]]; lia. Qed.

Section Proof.
  Variable n : nat.
  Variable outn : nat -> list nat.
  Variable m : nat.
  Variable lf : bool.
  Variable P : nat -> nat.
  Hypothesis Hsym : symmetric n outn.
  Hypothesis Hinj : forall u v, u < n -> v < n -> P u = P v -> u = v.
  Notation earlier := (earlier outn lf P).
  Notation priorities := (priorities outn lf P).
  Notation gc_loop := (gc_loop n outn m lf P).

  Lemma sym_adj u v : u < n -> In v (outn u) -> v < n /\ In u (outn v).
  Proof.
    intros Hu H. destruct Hsym as [S1 S2]. pose proof (S1 u v Hu H) as Hv. split; auto.
    apply (count_occ_In Nat.eq_dec). rewrite <- (S2 u v Hu Hv). now apply (count_occ_In Nat.eq_dec).
  Qed.
  Lemma earlier_irrefl v : earlier v v = false.
  Proof. unfold GCModel.earlier. now rewrite !Nat.ltb_irrefl, andb_false_r. Qed.
  Lemma earlier_spec u v : earlier u v = true <-> gc_class outn lf v < gc_class outn lf u \/ (gc_class outn lf u = gc_class outn lf v /\ P u < P v).
  Proof. unfold GCModel.earlier. now rewrite orb_true_iff, andb_true_iff, !Nat.ltb_lt, Nat.eqb_eq. Qed.
  Lemma earlier_asym u v : earlier u v = true -> earlier v u = false.
  Proof. intros H. destruct (earlier v u) eqn:E; auto. apply earlier_spec in H, E. lia. Qed.
  Lemma earlier_trans u v w : earlier u v = true -> earlier v w = true -> earlier u w = true.
  Proof. rewrite !earlier_spec. lia. Qed.
  Lemma earlier_total u v : u < n -> v < n -> u <> v -> earlier u v = true \/ earlier v u = true.
  Proof.
    intros Hu Hv N. rewrite !earlier_spec. assert (P u <> P v) by (intros E; apply N; auto). lia.
  Qed.
  Lemma earliest L : L <> [] -> (forall v, In v L -> v < n) -> exists v, In v L /\ forall u, In u L -> earlier u v = false.
  Proof.
    induction L as [|x L IH]; intros Hne HL; [congruence|]. destruct L as [|y L].
    - exists x. split; [now left|]. intros u [<-|[]]. apply earlier_irrefl.
    - destruct IH as (v & Hv & Hm); [congruence|intros; apply HL; now right|].
      destruct (earlier x v) eqn:E.
      + exists x. split; [now left|]. intros u [<-|Hu]; [apply earlier_irrefl|]. destruct (earlier u x) eqn:E2; auto.
        rewrite <- (Hm u Hu). symmetry. eapply earlier_trans; eauto.
      + exists v. split; [now right|]. intros u [<-|Hu]; auto.
  Qed.

  (* the colours of the earlier neighbours *)
  Definition taken_by (colors : nat -> option nat) (v i : nat) : Prop := exists u, In u (outn v) /\ earlier u v = true /\ colors u = Some i.
  Definition greedy (colors : nat -> option nat) (v : nat) : Prop := exists c, colors v = Some c /\ first_free (length (outn v)) (taken_by colors v) c.
  Definition left (Dn : list nat) (v : nat) : nat := length (filter (fun u => earlier u v && negb (mem u Dn)) (outn v)).

  Record GI (f : nat) (colors : nat -> option nat) (p : nat -> Z) (U : vset unit) (Dn R : list nat) : Prop := {
    gi_nd : NoDup Dn;
    gi_lt : forall v, In v Dn -> v < n;
    gi_f : f = length Dn;
    gi_U : Inv n U (plain R);
    gi_R : forall v, In v R <-> v < n /\ ~ In v Dn /\ left Dn v = 0;
    gi_p : forall v, v < n -> p v = if mem v Dn then 0%Z else Z.of_nat (left Dn v);
    gi_none : forall v, ~ In v Dn -> colors v = None;
    gi_col : forall v, In v Dn -> greedy colors v;
    gi_dn : forall v u, In v Dn -> In u (outn v) -> earlier u v = true -> In u Dn }.

  Lemma left_0 Dn v : left Dn v = 0 <-> forall u, In u (outn v) -> earlier u v = true -> In u Dn.
  Proof.
    unfold left. rewrite length_zero_iff_nil. split.
    - intros E u Hu He. destruct (mem u Dn) eqn:Em; [now apply mem_In|]. assert (In u []) as []. rewrite <- E. apply filter_In. split; auto. now rewrite He, Em.
    - intros H. destruct (filter _ _) as [|x l] eqn:E; auto. assert (Hx : In x (x :: l)) by now left. rewrite <- E in Hx. apply filter_In in Hx as [Hx Ho].
      apply andb_true_iff in Ho as [H1 H2]. apply negb_true_iff in H2. apply H in H1; auto. apply mem_In in H1. congruence.
  Qed.

  Lemma gi_start : GI 0 (fun _ => None) priorities (vs_sparse n (plain (filter (fun v => (priorities v =? 0)%Z) (seq 0 n)))) []
      (filter (fun v => (priorities v =? 0)%Z) (seq 0 n)).
  Proof.
    assert (Hl : forall v, priorities v = Z.of_nat (left [] v)).
    { intros v. unfold GCModel.priorities, left. do 2 f_equal. apply filter_ext_in'. intros u _. simpl. now rewrite andb_true_r. }
    constructor.
    - constructor.
    - intros v [].
    - reflexivity.
    - apply (built_inv tt). split; [|right; left; reflexivity]. split; unfold plain.
      + rewrite map_map, map_id. apply NoDup_filter', seq_NoDup.
      + apply Forall_map, Forall_forall. intros v Hv. apply filter_In in Hv as [Hv _]. apply in_seq in Hv. simpl. lia.
    - intros v. rewrite filter_In, in_seq, Z.eqb_eq, Hl. simpl. split; intros; intuition lia.
    - intros v _. simpl. apply Hl.
    - auto.
    - intros v [].
    - intros v u [].
  Qed.

  Lemma R_nd f colors p U Dn R : GI f colors p U Dn R -> NoDup R.
  Proof. intros H. destruct (i_sub (gi_U H)) as [Hn _]. unfold plain in Hn. now rewrite map_map, map_id in Hn. Qed.

  Lemma gi_round f colors p U Dn R U1 colors' p' U' : GI f colors p U Dn R -> toSparse U = Some U1 ->
    color_roots outn (map fst (vs U1)) colors colors' -> edgeMap_count (fun _ _ => true) n outn outn m U1 p p' U' ->
    exists R', GI (f + size U) colors' p' U' (R ++ Dn) R'.
  Proof.
    intros HI E1 (view & Hview & Hcol) Hem. pose proof (R_nd HI) as HRnd.
    destruct (toSparse_inv (gi_U HI)) as (U1' & E1' & HU1 & Hs1). rewrite E1 in E1'. injection E1' as <-.
    assert (HR1 : forall v, In v (map fst (vs U1)) <-> In v R).
    { intros v. rewrite <- (in_plain R v). assert (Hp : Permutation (map fst (vs U1)) (map fst (plain R))) by (apply Permutation_map; now apply (i_ss HU1)).
      split; apply Permutation_in; auto. now apply Permutation_sym. }
    assert (HRR : forall v, In v R <-> v < n /\ ~ In v Dn /\ left Dn v = 0) by apply (gi_R HI).
    assert (Hdis : NoDup (R ++ Dn)).
    { apply NoDup_app_iff. split; auto. split; [apply (gi_nd HI)|]. intros v Hv. apply HRR in Hv. tauto. }
    assert (Hfilt : forall v, v < n -> ~ In v Dn -> ~ In v R -> left Dn v = left (R ++ Dn) v + length (filter (fun s => existsb (Nat.eqb s) R && true) (outn v))).
    { intros v Hv Hd Hr. unfold left. rewrite Nat.add_comm.
      rewrite (@filter_split _ (fun s => existsb (Nat.eqb s) R && true) (fun u => earlier u v && negb (mem u Dn)) (outn v)).
      - f_equal. f_equal. apply filter_ext_in'. intros u _. unfold mem. rewrite existsb_app. destruct (earlier u v), (existsb (Nat.eqb u) R), (existsb (Nat.eqb u) Dn); reflexivity.
      - intros u Hu Hm. rewrite andb_true_r in Hm. apply mem_In in Hm. assert (Hm' := Hm). apply HRR in Hm as (A & B & C). apply andb_true_iff. split.
        + destruct (earlier_total A Hv) as [X|X]; auto; [intros ->; auto|]. exfalso. rewrite left_0 in C. apply Hd, (C v); auto. now apply sym_adj.
        + apply negb_true_iff. destruct (mem u Dn) eqn:E; auto. apply mem_In in E. contradiction. }
    assert (Hhits : forall d, d < n -> hits (fun _ _ => true) outn R d = Z.of_nat (length (filter (fun s => existsb (Nat.eqb s) R && true) (outn d)))).
    { intros d Hd. apply hits_sym with n; auto. intros u Hu. now apply HRR in Hu. }
    assert (Hpos : forall d, d < n -> (0 < p d)%Z -> ~ In d Dn /\ ~ In d R).
    { intros d Hd Hp. rewrite (gi_p HI) in Hp by auto. destruct (mem d Dn) eqn:E; [lia|]. split.
      - intros H. apply mem_In in H. congruence.
      - intros H. apply HRR in H as (_ & _ & H). lia. }
    assert (Hout0 : forall d, n <= d -> hits (fun _ _ => true) outn R d = 0%Z).
    { intros d Hd. eapply hits_out; [exact (gi_U HI)|exact (proj1 Hsym)|auto]. }
    assert (Hle : forall d, (0 < p d)%Z -> (hits (fun _ _ => true) outn R d <= p d)%Z).
    { intros d Hp. destruct (Nat.lt_ge_cases d n) as [Hd|Hd]; [|rewrite Hout0 by auto; lia].
      destruct (Hpos d Hd Hp) as [A B]. rewrite Hhits by auto. rewrite (gi_p HI) by auto. destruct (mem d Dn) eqn:E; [apply mem_In in E; contradiction|].
      rewrite (Hfilt d Hd A B). lia. }
    destruct (@edgeMap_count_ok (fun _ _ => true) n outn outn R U1 p HU1 (proj1 Hsym) Hhits (fun s d Hd Hs => proj1 Hsym d s Hd Hs) Hle m p' U' Hem) as [Hp' (l & Hl1 & Hl2 & Hl3)].
    assert (Hmem : forall v, mem v (R ++ Dn) = mem v R || mem v Dn) by (intros v; unfold mem; apply existsb_app).
    assert (Hsize : size U = length R) by (unfold size; rewrite (i_m (gi_U HI)); unfold plain; now rewrite map_length).
    assert (Hp'' : forall v, v < n -> p' v = if mem v (R ++ Dn) then 0%Z else Z.of_nat (left (R ++ Dn) v)).
    { intros v Hv. rewrite Hp'. pose proof (gi_p HI Hv) as Hpv. rewrite Hmem. destruct (mem v Dn) eqn:Ed.
      - rewrite Hpv. rewrite orb_true_r. reflexivity.
      - rewrite orb_false_r. destruct (mem v R) eqn:Er.
        + apply mem_In in Er. apply HRR in Er as (_ & _ & Er). rewrite Hpv, Er. reflexivity.
        + assert (Hnd : ~ In v Dn) by (intros X; apply mem_In in X; congruence). assert (Hnr : ~ In v R) by (intros X; apply mem_In in X; congruence).
          assert (0 < p v)%Z.
          { rewrite Hpv. destruct (left Dn v) eqn:El; [|lia]. exfalso. apply Hnr, HRR. auto. }
          rewrite (proj2 (Z.ltb_lt 0 (p v))) by auto. rewrite Hhits by auto. rewrite Hpv, (Hfilt v Hv Hnd Hnr). lia. }
    assert (Hold : forall v, In v Dn -> colors' v = colors v).
    { intros v Hv. rewrite Hcol. destruct (existsb (Nat.eqb v) (map fst (vs U1))) eqn:E; auto. apply mem_In, HR1, HRR in E. tauto. }
    exists l. constructor.
    - auto.
    - intros v Hv. apply in_app_iff in Hv as [Hv|Hv]; [now apply HRR in Hv|now apply (gi_lt HI)].
    - rewrite app_length, (gi_f HI), Hsize. lia.
    - now apply (built_inv tt).
    - intros v. rewrite Hl2. rewrite in_app_iff. split.
      + intros [Hq Hh]. destruct (Nat.lt_ge_cases v n) as [Hv|Hv]; [|rewrite Hout0 in Hh by auto; lia].
        destruct (Hpos v Hv Hq) as [A B]. split; auto. split; [tauto|]. pose proof (Hp'' v Hv) as X. rewrite Hp' in X.
        rewrite (proj2 (Z.ltb_lt 0 (p v))) in X by auto. destruct (mem v (R ++ Dn)) eqn:Em; [apply mem_In, in_app_iff in Em; tauto|lia].
      + intros (Hv & Hnn & Hz). assert (A : ~ In v Dn) by tauto. assert (B : ~ In v R) by tauto.
        assert (Hq : (0 < p v)%Z).
        { rewrite (gi_p HI) by auto. destruct (mem v Dn) eqn:E; [apply mem_In in E; tauto|]. destruct (left Dn v) eqn:El; [|lia]. exfalso. apply B, HRR. auto. }
        split; auto. pose proof (Hp'' v Hv) as X. rewrite Hp' in X. rewrite (proj2 (Z.ltb_lt 0 (p v))) in X by auto.
        destruct (mem v (R ++ Dn)) eqn:Em; [apply mem_In, in_app_iff in Em; tauto|lia].
    - exact Hp''.
    - intros v Hv. rewrite in_app_iff in Hv. rewrite Hcol. destruct (existsb (Nat.eqb v) (map fst (vs U1))) eqn:E; [apply mem_In, HR1 in E; tauto|]. apply (gi_none HI). tauto.
    - (* the new colours *)
      intros v Hv. apply in_app_iff in Hv as [Hv|Hv].
      + pose proof (proj1 (HRR v) Hv) as (Hvn & Hvd & Hvl). rewrite left_0 in Hvl.
        exists (pick_color (map (view v) (outn v))). split.
        * rewrite Hcol. destruct (existsb (Nat.eqb v) (map fst (vs U1))) eqn:E; auto. apply HR1, mem_In in Hv. unfold mem in Hv. congruence.
        * assert (Hvw : forall u, In u (outn v) -> view v u = if earlier u v then colors' u else None).
          { intros u Hu. destruct (sym_adj u Hvn Hu) as [Hun Hvu]. destruct (earlier u v) eqn:Ee.
            - specialize (Hvl u Hu Ee). destruct (Hview v u) as [E|(HuR & _)]; [now rewrite Hold|]. apply HR1, HRR in HuR. tauto.
            - assert (Hud : ~ In u Dn).
              { intros X. destruct (Nat.eq_dec u v) as [->|N]; [auto|]. destruct (earlier_total Hun Hvn N) as [Y|Y]; [congruence|]. apply Hvd. now apply (gi_dn HI u). }
              destruct (Hview v u) as [E|(HuR & N & E)]; [rewrite E; now apply (gi_none HI)|].
              apply HR1 in HuR.
              exfalso. apply HRR in HuR as (_ & A & B). destruct (earlier_total Hun Hvn N) as [Y|Y]; [congruence|].
                rewrite left_0 in B. apply Hvd, (B v); auto. }
          eapply first_free_ext; [|rewrite <- (map_length (view v) (outn v)); apply pick_ok].
          intros i. unfold taken, taken_by. rewrite in_map_iff. split.
          -- intros (u & Eu & Hu). exists u. rewrite (Hvw u Hu) in Eu. destruct (earlier u v); [auto|discriminate].
          -- intros (u & Hu & He & Eu). exists u. rewrite (Hvw u Hu), He. auto.
      + destruct (gi_col HI v Hv) as (c & Hc & Hg). exists c. rewrite (Hold v Hv). split; auto.
        eapply first_free_ext; [|exact Hg]. intros i. unfold taken_by. split; intros (u & A & B & C); exists u; repeat split; auto;
          (assert (In u Dn) by now apply (gi_dn HI v)); rewrite (Hold u) in *; auto.
    - intros v u Hv Hu He. apply in_app_iff. right. apply in_app_iff in Hv as [Hv|Hv]; [|now apply (gi_dn HI v)].
      apply HRR in Hv as (_ & _ & Hz). rewrite left_0 in Hz. auto.
  Qed.
  Lemma gi_loop f colors p U : gc_loop f colors p U -> exists Dn R, GI f colors p U Dn R.
  Proof.
    induction 1 as [|f colors p U U1 colors' p' U' _ (Dn & R & HI) _ E1 Hc He]; [eexists _, _; apply gi_start|].
    destruct (gi_round HI E1 Hc He) as [R' H]. eauto.
  Qed.

  Lemma gi_le f colors p U Dn R : GI f colors p U Dn R -> f <= n.
  Proof.
    intros HI. rewrite (gi_f HI). rewrite <- (seq_length n 0). apply NoDup_incl_length; [apply HI|]. intros v Hv. apply in_seq. pose proof (gi_lt HI v Hv). lia.
  Qed.
  Lemma gi_all colors p U Dn R : GI n colors p U Dn R -> forall v, v < n -> In v Dn.
  Proof.
    intros HI v Hv. assert (Hincl : incl (seq 0 n) Dn); [|apply Hincl, in_seq; lia].
    apply NoDup_length_incl; [apply HI|rewrite seq_length, <- (gi_f HI); lia|]. intros u Hu. apply in_seq. pose proof (gi_lt HI u Hu). lia.
  Qed.
  Lemma gi_roots f colors p U Dn R : GI f colors p U Dn R -> f <> n -> R <> [].
  Proof.
    intros HI Hf. set (rest := filter (fun v => negb (mem v Dn)) (seq 0 n)).
    assert (Hrest : forall v, In v rest <-> v < n /\ ~ In v Dn).
    { intros v. unfold rest. rewrite filter_In, in_seq, negb_true_iff, mem_false. intuition lia. }
    assert (Hne : rest <> []).
    { intros E. apply Hf. apply Nat.le_antisymm; [eapply gi_le; eauto|]. rewrite (gi_f HI). rewrite <- (seq_length n 0) at 1. apply NoDup_incl_length; [apply seq_NoDup|].
      intros v Hv. apply in_seq in Hv. destruct (in_dec Nat.eq_dec v Dn) as [|N]; auto. assert (In v rest) by (apply Hrest; split; auto; lia). rewrite E in *. contradiction. }
    destruct (earliest Hne) as (v & Hv & Hm); [intros v Hv; now apply Hrest in Hv|].
    apply Hrest in Hv as [Hv Hd]. assert (HR : In v R); [|destruct R; [destruct HR|congruence]].
    apply (gi_R HI). split; auto. split; auto. apply left_0. intros u Hu He. destruct (in_dec Nat.eq_dec u Dn) as [|N]; auto.
    rewrite (Hm u) in He; [discriminate|]. apply Hrest. split; auto. now apply (@sym_adj v u).
  Qed.

  Lemma gc_step f colors p U : gc_loop f colors p U -> f <> n ->
    0 < size U /\ exists colors' p' U', gc_loop (f + size U) colors' p' U'.
  Proof.
    intros HL Hf. destruct (gi_loop HL) as (Dn & R & HI). pose proof (gi_roots HI Hf) as Hne.
    assert (Hsize : size U = length R) by (unfold size; rewrite (i_m (gi_U HI)); unfold plain; now rewrite map_length).
    split; [rewrite Hsize; destruct R; [congruence|simpl; lia]|].
    destruct (toSparse_inv (gi_U HI)) as (U1 & E1 & HU1 & Hs1).
    assert (Hhits : forall d, d < n -> hits (fun _ _ => true) outn R d = Z.of_nat (length (filter (fun s => existsb (Nat.eqb s) R && true) (outn d)))).
    { intros d Hd. apply hits_sym with n; auto; [now apply (R_nd HI)|]. intros u Hu. now apply (gi_R HI) in Hu. }
    assert (Hle : forall d, (0 < p d)%Z -> (hits (fun _ _ => true) outn R d <= p d)%Z).
    { intros d Hp. destruct (Nat.lt_ge_cases d n) as [Hd|Hd].
      2:{ erewrite hits_out; [lia|exact (gi_U HI)|exact (proj1 Hsym)|auto]. }
      rewrite Hhits, (gi_p HI) by auto. rewrite (gi_p HI) in Hp by auto. destruct (mem d Dn) eqn:E; [lia|]. apply inj_le. unfold left. apply filter_le_imp.
      intros u Hu Hm. rewrite andb_true_r in Hm. apply mem_In, (gi_R HI) in Hm as (A & B & C). apply andb_true_iff. split.
      - destruct (Nat.eq_dec u d) as [->|N]; [lia|]. destruct (earlier_total A Hd N) as [X|X]; auto. exfalso. rewrite left_0 in C.
        assert (In d Dn) by (apply (C d); auto; now apply sym_adj). apply mem_In in H. congruence.
      - apply negb_true_iff, mem_false. auto. }
    destruct (@edgeMap_count_runs (fun _ _ => true) n outn outn R U1 p HU1 (proj1 Hsym) Hle m) as (p' & U' & He).
    exists (fun v => if existsb (Nat.eqb v) (map fst (vs U1)) then Some (pick_color (map colors (outn v))) else colors v), p', U'.
    eapply gc_round; eauto. exists (fun _ u => colors u). split; auto.
  Qed.
  Lemma gc_returns_from k : forall f colors p U, n <= f + k -> gc_loop f colors p U -> exists colors', coloring_returns n outn m lf P colors'.
  Proof.
    induction k as [|k IH]; intros f colors p U Hk HL; destruct (gi_loop HL) as (Dn & R & HI); pose proof (gi_le HI).
    - assert (f = n) as -> by lia. exists colors, p, U. auto.
    - destruct (Nat.eq_dec f n) as [->|N]; [exists colors, p, U; auto|]. destruct (gc_step HL N) as (Hs & c' & p' & U' & HL'). eapply IH; [|exact HL']. lia.
  Qed.

  Lemma greedy_low colors v u c : colors v = Some c -> first_free (length (outn v)) (taken_by colors v) c -> In u (outn v) -> earlier u v = true -> colors u <> Some c.
  Proof.
    intros Hc Hg Hu He E. destruct Hg as [(A & B & C)|[[A B]|(A & B & C)]].
    - apply B. exists u. auto.
    - destruct (outn v); [destruct Hu|discriminate].
    - assert (Hincl : incl (map Some (seq 0 (length (outn v)))) (map colors (outn v))).
      { intros x Hx. apply in_map_iff in Hx as (i & <- & Hi). apply in_seq in Hi. destruct (B i) as (w & Hw & _ & Ew); [lia|]. apply in_map_iff. eauto. }
      apply NoDup_length_incl in Hincl; [|apply FinFun.Injective_map_NoDup; [intros a b X; congruence|apply seq_NoDup]|rewrite !map_length, seq_length; lia].
      assert (Hx : In (Some c) (map Some (seq 0 (length (outn v))))) by (apply Hincl, in_map_iff; eauto).
      apply in_map_iff in Hx as (i & Ei & Hi). injection Ei as ->. apply in_seq in Hi. lia.
  Qed.
End Proof.
