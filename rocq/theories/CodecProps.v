(* C01-C04 and C09: the byte codec.  [same_in m m' a e] / [same_out m m' a e]: the two
   memories agree inside / outside the addresses [a, e). *)
From Verif Require Import Base CodecModel CodecSpec CodecProofs CodecList.
From Coq Require Import NArith ZArith Lia Sorted.
Local Open Scope N_scope.

Lemma same_holds m a l m' : same_in (wr m a l) m' a (a + length l) -> holds m' a l.
Proof. intros H. eapply holds_ext; [|apply (holds_wr l m a)]. exact H. Qed.

(* C01: whatever is written is read back, the cursor ends one past the last byte
   written, nothing else is touched, and the bytes around do not matter. *)
Theorem C01_first_edge_roundtrip : forall m a (src ngh : N), src < two32 -> ngh < two32 ->
  exists m1 e, compressFirstEdge m a (Z.of_N src) (Z.of_N ngh) = Some (m1, e) /\
    same_out m m1 a e /\
    forall m2, same_in m1 m2 a e -> eatFirstEdge m2 a src = Some (ngh, e).
Proof.
  intros m a s v Hs Hv. eexists _, _. split; [apply compressFirstEdge_writes|]. split.
  - intros b Hb. now apply wr_out.
  - intros m2 H2. apply eatFirstEdge_reads; auto. now apply same_holds in H2.
Qed.

Theorem C01_gap_roundtrip : forall m a (gap : N), 0 < gap -> gap < two32 ->
  exists m1 e, compressEdge m a gap = Some (m1, e) /\
    same_out m m1 a e /\
    forall m2, same_in m1 m2 a e -> eatEdge m2 a = Some (gap, e).
Proof.
  intros m a v H0 Hv. eexists _, _. split; [apply compressEdge_writes|]. split.
  - intros b Hb. now apply wr_out.
  - intros m2 H2. apply eatEdge_reads; auto. now apply same_holds in H2.
Qed.

Theorem C01_weight_roundtrip : forall w m a x, valid_w w x ->
  exists m1 e, compressWeight w m a x = Some (m1, e) /\
    same_out m m1 a e /\
    forall m2, same_in m1 m2 a e -> eatWeight w m2 a = Some (x, e).
Proof.
  intros w m a x H0. eexists _, _. split; [apply compressWeight_writes|]. split.
  - intros b Hb. now apply wr_out.
  - intros m2 H2. apply eatWeight_reads; auto. now apply same_holds in H2.
Qed.

(* a zero gap writes no byte at all, so it is not read back *)
Theorem C01_zero_gap_writes_nothing : forall m a, compressEdge m a 0 = Some (m, a).
Proof. reflexivity. Qed.

(* the weight INT_MIN is written but reading it negates INT_MIN *)
Theorem C01_int_min_weight_refuted : forall m a, exists m1 e,
  compressWeight WInt m a (-2147483648) = Some (m1, e) /\ eatWeight WInt m1 a = None.
Proof.
  intros m a. eexists _, _. split; [apply compressWeight_writes|].
  unfold eatWeight. rewrite (@eatSigned_reads _ a (-2147483648)%Z); [reflexivity|reflexivity|].
  apply holds_wr.
Qed.

(* C02 *)
Theorem C02_byte_list_roundtrip : forall w m a src l, src < two32 -> adj_ok w l ->
  exists m1 e, sequentialCompressEdgeSet w m a src l = Some (m1, e) /\
    same_out m m1 a e /\
    forall m2, same_in m1 m2 a e -> exists a',
      decode w record m2 a src (length l) []
      = Some (map (fun p => (fst (fst p), snd (fst p), snd p)) (combine l (seq 0 (length l))), a').
Proof.
  intros w m a s l Hs Hl. apply ok_adj in Hl.
  eexists _, _. split; [now apply compressSet_writes|]. split.
  - intros b Hb. now apply wr_out.
  - intros m2 H2. apply same_holds in H2.
    destruct (@decode_run w _ record l m2 a s [] Hs Hl H2) as [a' E]. exists a'.
    rewrite E. f_equal. f_equal.
    assert (G : forall l i acc, visit record i l acc
       = acc ++ map (fun p => (fst (fst p), snd (fst p), snd p)) (combine l (seq i (length l)))).
    { clear. induction l as [|[v x] l IH]; intros i acc; simpl.
      - now rewrite app_nil_r.
      - rewrite IH, <- app_assoc. reflexivity. }
    apply (G l 0%nat []).
Qed.

(* a repeated neighbour is not decoded correctly: 0's list 1, 1, 5 *)
Theorem C02_repeated_neighbour_refuted : exists m1 e,
  sequentialCompressEdgeSet WEmpty (fun _ => 0) 0 0 [(1, 0%Z); (1, 0%Z); (5, 0%Z)] = Some (m1, e) /\
  option_map fst (decode WEmpty record m1 0 0 3 []) = Some [(1, 0%Z, 0%nat); (5, 0%Z, 1%nat); (5, 0%Z, 2%nat)].
Proof.
  exists (fset (fset (fun _ => 0) 0%nat 1) 1%nat 4), 2%nat.
  split; [reflexivity|]. vm_compute. reflexivity.
Qed.

(* C03 *)
Theorem C03_byte_early_exit : forall w St (t : St -> N -> Z -> nat -> St * bool) m a src l s,
  src < two32 -> adj_ok w l ->
  exists m1 e, sequentialCompressEdgeSet w m a src l = Some (m1, e) /\
    forall m2, same_in m1 m2 a e -> exists a',
      decode w t m2 a src (length l) s = Some (visit t 0 l s, a').
Proof.
  intros w St t m a src l s Hs Hl. apply ok_adj in Hl.
  eexists _, _. split; [now apply compressSet_writes|].
  intros m2 H2. apply same_holds in H2. now apply decode_run.
Qed.

Theorem C03_byte_map_reduce : forall w E (f : N -> Z -> E) (reduce : E -> E -> E) (identity : E) m a src l,
  (forall x, reduce identity x = x) ->
  src < two32 -> adj_ok w l ->
  exists m1 e, sequentialCompressEdgeSet w m a src l = Some (m1, e) /\
    forall m2, same_in m1 m2 a e ->
      map_reduce w f reduce identity m2 a src (length l)
      = Some (fold_left reduce (map (fun e => f (fst e) (snd e)) l) identity).
Proof.
  intros w E f red id m a src l Hid Hs Hl. apply ok_adj in Hl.
  eexists _, _. split; [now apply compressSet_writes|].
  intros m2 H2. apply same_holds in H2. rewrite map_reduce_run by auto. f_equal.
  assert (G : forall l acc, fold_left (fun acc e => red acc (f (fst e) (snd e))) l acc
      = fold_left red (map (fun e : edge => f (fst e) (snd e)) l) acc).
  { clear. induction l; intros acc; simpl; auto. }
  destruct l as [|e l]; simpl; auto. now rewrite G, Hid.
Qed.

Theorem C03_byte_filter : forall w (pred : N -> Z -> bool) m a src l, src < two32 -> adj_ok w l ->
  exists m1 e, sequentialCompressEdgeSet w m a src l = Some (m1, e) /\
    forall m2, same_in m1 m2 a e ->
      filter_out w pred m2 a src (length l) = Some (filter (fun e => pred (fst e) (snd e)) l).
Proof.
  intros w pred m a src l Hs Hl. apply ok_adj in Hl.
  eexists _, _. split; [now apply compressSet_writes|].
  intros m2 H2. apply same_holds in H2. now apply filter_run.
Qed.

(* C04: after packing, decoding with the returned degree visits the selected edges
   in order; the bytes outside the original encoding are untouched. *)
Theorem C04_byte_pack : forall w (pred : N -> Z -> bool) m a src l, src < two32 -> adj_ok w l ->
  let kept := filter (fun e => pred (fst e) (snd e)) l in
  exists m1 e, sequentialCompressEdgeSet w m a src l = Some (m1, e) /\
    forall m2, same_in m1 m2 a e ->
      exists m3, pack w pred src m2 a (length l) = Some (m3, length kept) /\
        same_out m2 m3 a e /\
        forall St (t : St -> N -> Z -> nat -> St * bool) s, exists a',
          decode w t m3 a src (length kept) s = Some (visit t 0 kept s, a').
Proof.
  intros w pred m a src l Hs Hl kept. apply ok_adj in Hl.
  eexists _, _. split; [now apply compressSet_writes|].
  intros m2 H2. apply same_holds in H2. destruct (@pack_run w pred src Hs l m2 a Hl H2) as [E L].
  eexists. split; [exact E|]. split.
  - intros b Hb. apply wr_out. lia.
  - intros St t s. apply decode_run; auto.
    + now apply ok_keep.
    + apply holds_wr.
Qed.

(* C09: get_ith_neighbor returns element i-1 (element 0 for i = 0) ... *)
Theorem C09_ith_neighbor_is_previous : forall w m a src l i, src < two32 -> adj_ok w l -> (i < length l)%nat ->
  exists m1 e, sequentialCompressEdgeSet w m a src l = Some (m1, e) /\
    get_ith_neighbor w m1 a src i = nth_error l (i - 1).
Proof.
  intros w m a src l i Hs Hl Hi. apply ok_adj in Hl.
  eexists _, _. split; [now apply compressSet_writes|]. apply get_ith_run; auto. apply holds_wr.
Qed.

(* ... hence never the i-th neighbour, for any list, when i >= 1 *)
Theorem C09_ith_neighbor_refuted : forall w m a src l i, src < two32 -> adj_ok w l -> (1 <= i < length l)%nat ->
  exists m1 e, sequentialCompressEdgeSet w m a src l = Some (m1, e) /\
    get_ith_neighbor w m1 a src i <> nth_error l i.
Proof.
  intros w m a src l i Hs Hl Hi. destruct (@C09_ith_neighbor_is_previous w m a src l i) as (m1 & e & E1 & E2); auto; [lia|].
  exists m1, e. split; auto. rewrite E2.
  destruct (nth_error l i) as [[v x]|] eqn:Ei; [|apply nth_error_None in Ei; lia].
  destruct (nth_error l (i - 1)) as [[u y]|] eqn:Ej; [|apply nth_error_None in Ej; lia].
  intros C. injection C as -> ->.
  destruct Hl as [_ Hsort].
  apply (map_nth_error fst) in Ei. apply (map_nth_error fst) in Ej.
  replace i with (S (i - 1)) in Ei by lia. revert Ei Ej. generalize (i - 1)%nat. clear -Hsort.
  induction Hsort as [|z l0 Hs IH HF]; intros k Hi Hj; [destruct k; discriminate|].
  destruct k as [|k]; simpl in *.
  - injection Hj as ->. apply (nth_error_In l0 0) in Hi. rewrite Forall_forall in HF. apply HF in Hi. lia.
  - eauto.
Qed.

(* Non-vacuity *)
Example codec_witness : adj_ok WInt [(3, 5%Z); (200, (-70)%Z); (4294967295, 2147483647%Z)].
Proof. split; repeat constructor; simpl; lia. Qed.
Example codec_witness_unweighted : adj_ok WEmpty [(0, 0%Z); (1, 0%Z)].
Proof. split; repeat constructor; simpl; lia. Qed.
Example codec_run :
  match sequentialCompressEdgeSet WInt (fun _ => 255) 2 100 [(3, 5%Z); (200, (-70)%Z); (4294967295, 2147483647%Z)] with
  | Some (m1, e) =>
      match pack WInt (fun v _ => negb (v =? 200)) 100 m1 2 3 with
      | Some (m3, d) => Some (e, d, option_map fst (decode WInt record m3 2 100 2 []))
      | None => None
      end
  | None => None
  end = Some (19%nat, 2%nat, Some [(3, 5%Z, 0%nat); (4294967295, 2147483647%Z, 1%nat)]).
Proof. vm_compute. reflexivity. Qed.

Print Assumptions C01_first_edge_roundtrip.
Print Assumptions C01_gap_roundtrip.
Print Assumptions C01_weight_roundtrip.
Print Assumptions C01_zero_gap_writes_nothing.
Print Assumptions C01_int_min_weight_refuted.
Print Assumptions C02_byte_list_roundtrip.
Print Assumptions C02_repeated_neighbour_refuted.
Print Assumptions C03_byte_early_exit.
Print Assumptions C03_byte_map_reduce.
Print Assumptions C03_byte_filter.
Print Assumptions C04_byte_pack.
Print Assumptions C09_ith_neighbor_is_previous.
Print Assumptions C09_ith_neighbor_refuted.
