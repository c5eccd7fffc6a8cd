(* Proofs about the runs of the local query algorithms. *)
From Coq Require Import Permutation Sorted.
From Verif Require Import Base ListUtil MISpec YQModel YQSpec YQProofs.
Unset Strict Implicit.

Lemma vertex_comp_true pri i u v : vertex_comp pri i u v = true <-> vertex_before pri u v.
Proof.
  unfold vertex_comp, vertex_before. destruct (Nat.ltb_spec (pri u) (pri v)); [split; auto; lia|].
  destruct (Nat.ltb_spec (pri v) (pri u)); [split; [discriminate|lia]|]. rewrite Nat.ltb_lt. lia.
Qed.
Lemma ltb_cotrans x y z : (y <? x) = false -> (z <? y) = false -> (z <? x) = false.
Proof. rewrite !Nat.ltb_ge. lia. Qed.
Lemma vertex_cotrans pri i x y z : vertex_comp pri i y x = false -> vertex_comp pri i z y = false -> vertex_comp pri i z x = false.
Proof. apply (@lex_cotrans _ pri Nat.ltb ltb_cotrans). Qed.
Lemma list_max_perm l l' : Permutation l l' -> list_max l = list_max l'.
Proof. induction 1; simpl; auto; [lia|congruence]. Qed.
Lemma list_sum_perm l l' : Permutation l l' -> list_sum l = list_sum l'.
Proof. induction 1; simpl; auto; [lia|congruence]. Qed.
Lemma filter_perm {A} (f : A -> bool) l l' : Permutation l l' -> Permutation (filter f l) (filter f l').
Proof.
  induction 1; simpl; auto; [destruct (f x); auto|destruct (f x), (f y); auto; constructor|eapply Permutation_trans; eauto].
Qed.

(* an order: sorting is possible *)
Section Sort.
  Variable A : Type.
  Variable lt : A -> A -> bool.
  Hypothesis irrefl : forall x, lt x x = false.
  Hypothesis cotrans : forall x y z, lt y x = false -> lt z y = false -> lt z x = false.
  Fixpoint insert (x : A) (l : list A) : list A :=
    match l with [] => [x] | y :: r => if lt y x then y :: insert x r else x :: l end.
  Lemma insert_perm x l : Permutation (insert x l) (x :: l).
  Proof. induction l as [|y l IH]; simpl; auto. destruct (lt y x); auto. rewrite IH. constructor. Qed.
  Hypothesis asym : forall x y, lt x y = true -> lt y x = false.
  Lemma sort_exists l : exists l', Permutation l' l /\ StronglySorted (fun a b => lt b a = false) l'.
  Proof.
    induction l as [|x l [l' [Hp Hs]]]; [exists []; split; auto; constructor|]. exists (insert x l'). split.
    { rewrite insert_perm. now constructor. } clear Hp. induction Hs as [|y l0 Hs IH Hf]; simpl; [repeat constructor|].
    destruct (lt y x) eqn:E.
    - constructor; auto. rewrite Forall_forall in *. intros z Hz. apply (Permutation_in _ (insert_perm x l0)) in Hz.
      destruct Hz as [<-|Hz]; auto.
    - constructor; [now constructor|]. rewrite Forall_forall in *. intros z [<-|Hz]; auto. eapply cotrans; eauto.
  Qed.
End Sort.
Lemma reordered_exists (comp : nat -> nat -> nat -> bool) n outn :
  (forall i x y z, comp i y x = false -> comp i z y = false -> comp i z x = false) ->
  (forall i x y, comp i x y = true -> comp i y x = false) -> exists edges, reordered comp n outn edges.
Proof.
  intros Hc Ha. assert (H : exists f, forall v, v < n -> Permutation (f v) (outn v) /\ sorted_by (comp v) (f v)).
  { induction n as [|n [f Hf]]; [exists (fun _ => []); intros; lia|].
    destruct (@sort_exists _ (comp n) (fun x y z => Hc n x y z) (fun x y => Ha n x y) (outn n)) as [l Hl].
    exists (fset f n l). intros v Hv. destruct (Nat.eq_dec v n) as [->|]; [now rewrite fset_same|].
    rewrite fset_other by auto. apply Hf. lia. }
  destruct H as [f Hf]. exists (flat_map f (seq 0 n)), f. auto.
Qed.

(* -- the maximal independent set ---------------------------------------------------------------------- *)
Lemma first_set_maximal n outn before S : (forall u v, u < n -> In v (outn u) -> v < n /\ In u (outn v)) ->
  (forall u v, u < n -> v < n -> u <> v -> before u v \/ before v u) -> (forall v, v < n -> ~ In v (outn v)) ->
  first_set n outn before S -> maximal_independent n outn S.
Proof.
  intros Hsym Htot Hl HS. split.
  - intros u v Hu Hin Hn Su Sv. destruct (Hsym _ _ Hu Hin) as [Hv Hin']. destruct (Htot u v Hu Hv Hn) as [Hb|Hb].
    + rewrite (proj1 (HS v Hv) Sv u) in Su; auto. discriminate.
    + rewrite (proj1 (HS u Hu) Su v) in Sv; auto. discriminate.
  - intros v Hv Sv. destruct (existsb S (outn v)) eqn:E.
    + apply existsb_exists in E. destruct E as (u & Hin & Su). exists u. repeat split; auto. intros ->. eapply Hl; eauto.
    + exfalso. assert (S v = true); [|congruence]. apply HS; auto. intros u Hin _. destruct (S u) eqn:Su; auto.
      assert (existsb S (outn v) = true) by (apply existsb_exists; eauto). congruence.
Qed.
Lemma mis_queries pri n outn edges : (forall u v, u < n -> In v (outn u) -> v < n) -> reordered (vertex_comp pri) n outn edges ->
  exists S full, first_set n outn (vertex_before pri) S /\
    forall c depth v, n <= depth -> v < n -> mis_query pri (slice outn edges) c depth v 0 =
      if full v <=? c then Ret (if S v then In_ else Out_) (full v) else Ret Unknown c.
Proof.
  intros Hlt Hre. destruct (slice_eq Hre) as (f & Hf & Hsl).
  set (nghs := slice outn edges) in *. set (lt := vertex_comp pri 0). set (dom := fun v => v < n).
  set (rank := fun v => length (filter (fun u => lt u v) (seq 0 n))).
  assert (closed : forall x y, dom x -> In y (nghs x) -> dom y).
  { intros x y Hx Hin. unfold dom in *. rewrite Hsl in Hin by auto. apply (Permutation_in _ (proj1 (Hf x Hx))) in Hin. eauto. }
  assert (irr : forall x, lt x x = false) by (intros x; unfold lt, vertex_comp; now rewrite !Nat.ltb_irrefl).
  assert (ranked : forall x y, dom x -> dom y -> lt y x = true -> rank y < rank x).
  { intros x y Hx Hy E. apply filter_lt with (x := y); auto; [|apply in_seq; unfold dom in *; lia].
    intros z _ Hz. apply vertex_comp_true. apply vertex_comp_true in Hz, E. unfold vertex_before in *. lia. }
  assert (bound : forall x, dom x -> rank x < n).
  { intros x Hx. apply Nat.lt_le_trans with (length (filter (fun _ => true) (seq 0 n))).
    - apply filter_lt with (x := x); auto. apply in_seq. unfold dom in *. lia.
    - rewrite filter_all by auto. now rewrite seq_length. }
  assert (sorted : forall x, dom x -> StronglySorted (fun a b => lt b a = false) (nghs x)).
  { intros x Hx. rewrite Hsl by auto. exact (proj2 (Hf x Hx)). }
  exists (ans nghs lt n), (full nghs lt n). split.
  - intros v Hv. rewrite (ans_greedy closed ranked (vertex_cotrans (pri := pri) (i := 0)) sorted bound Hv).
    rewrite (Hsl v Hv). split; intros H u Hin Hb.
    + apply H; [|now apply vertex_comp_true]. eapply Permutation_in; [symmetry; apply Hf; auto|auto].
    + apply H; [|now apply vertex_comp_true in Hb]. eapply Permutation_in; [apply Hf; auto|auto].
  - intros c depth v Hd Hv. assert (E := @mis_gq pri nghs c depth n v 0 closed sorted Hv). fold lt in E. rewrite E, (gq_ans c closed ranked bound Hv Hd). reflexivity.
Qed.
Lemma mis_run pri n outn edges smax c depth (S : nat -> bool) (full : nat -> nat) : (forall v, v < n -> mis_query pri (slice outn edges) c depth v 0 =
      if full v <=? c then Ret (if S v then In_ else Out_) (full v) else Ret Unknown c) ->
  (forall u v, u < n -> In v (outn u) -> v < n) -> (forall v, v < n -> ~ In v (outn v)) -> maximal_independent n outn S ->
  (c < smax \/ forall v, v < n -> full v <= c) ->
  exists mis answered, MaximalIndependentSet smax pri n outn edges c depth =
      Some (mis, answered, list_max (map (fun v => Nat.min (full v) c) (seq 0 n)),
            list_sum (map (fun v => Nat.min (full v) c) (seq 0 n)) mod (smax + 1),
            length (filter (fun v => full v <=? c) (seq 0 n))) /\
    forall v, v < n -> mis v = S v && (full v <=? c) /\ answered v = (full v <=? c).
Proof.
  intros Hq Hlt Hself HS Hc. unfold MaximalIndependentSet. set (q := fun i => mis_query pri (slice outn edges) c depth i 0) in *.
  assert (Hret : forallb (fun i => returned (q i)) (seq 0 n) = true).
  { apply forallb_forall. intros v Hv. apply in_seq in Hv. unfold q. rewrite Hq by lia. now destruct (full v <=? c). }
  assert (Hin : forall v, v < n -> is_in (q v) = S v && (full v <=? c)).
  { intros v Hv. unfold q. rewrite Hq by auto. destruct (full v <=? c); simpl; [|now rewrite andb_false_r]. now destruct (S v). }
  assert (Hans : forall v, v < n -> is_answer (q v) = (full v <=? c)).
  { intros v Hv. unfold q. rewrite Hq by auto. destruct (full v <=? c); simpl; auto. now destruct (S v). }
  assert (Hw : forall v, v < n -> work_of (q v) = Nat.min (full v) c).
  { intros v Hv. unfold q. rewrite Hq by auto. destruct (Nat.leb_spec (full v) c); simpl; lia. }
  cbv zeta. fold q. change (fun i => returned (mis_query pri (slice outn edges) c depth i 0)) with (fun i => returned (q i)).
  rewrite Hret.
  assert (Hm : map (fun i => work_of (q i)) (seq 0 n) = map (fun v => Nat.min (full v) c) (seq 0 n)).
  { apply map_ext_in. intros v Hv. apply in_seq in Hv. apply Hw. lia. }
  assert (Hf : filter (fun i => is_answer (q i)) (seq 0 n) = filter (fun v => full v <=? c) (seq 0 n)).
  { apply filter_ext_in. intros v Hv. apply in_seq in Hv. apply Hans. lia. }
  exists (fun i => is_in (q i)), (fun i => is_answer (q i)). split; [|intros v Hv; auto].
  match goal with |- (if ?b then _ else _) = _ => assert (Hb : b = true) end.
  { apply orb_true_iff. destruct (Nat.eqb_spec c smax) as [->|]; [right|left; auto]. apply forallb_forall. intros v Hv. apply in_seq in Hv.
    destruct Hc as [Hc|Hc]; [lia|]. assert (Hle : forall u, u < n -> is_in (q u) = S u).
    { intros u Hu. rewrite Hin by auto. rewrite (proj2 (Nat.leb_le _ _) (Hc u Hu)). apply andb_true_r. }
    fold (q v). rewrite (Hle v) by lia. destruct HS as [H1 H2].
    assert (Hff : filter (fun i => is_in (q i)) (outn v) = filter S (outn v)).
    { apply filter_ext_in. intros u Hu. apply Hle. eapply Hlt; eauto. lia. }
    unfold q in Hff. rewrite Hff. destruct (S v) eqn:Sv.
    - apply Nat.eqb_eq. destruct (filter S (outn v)) as [|u r] eqn:E; auto. assert (Hu : In u (filter S (outn v))) by (rewrite E; now left).
      apply filter_In in Hu. exfalso. apply (H1 v u); [lia|tauto| |auto|tauto]. intros ->. apply (Hself u); [lia|tauto].
    - destruct (H2 v ltac:(lia) Sv) as (u & Hu & _ & Su). apply negb_true_iff, Nat.eqb_neq. intros E. apply length_zero_iff_nil in E.
      assert (Hin' : In u (filter S (outn v))) by (apply filter_In; auto). rewrite E in Hin'. easy. }
  rewrite Hb. unfold q in Hm, Hf. rewrite Hm, Hf. reflexivity.
Qed.
