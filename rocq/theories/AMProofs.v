(* Proofs about the amortized block codec: layout, reading, encoding. *)
From Verif Require Import Base ListUtil CodecModel CodecSpec CodecProofs CodecList PDModel PDSpec PDProofs AMModel AMSpec.
From Coq Require Import NArith ZArith Lia Sorted Permutation.
Local Open Scope N_scope.

Lemma uint_at_ext m m' a : (forall b, (a <= b < a + 4)%nat -> m' b = m b) -> uint_at m' a = uint_at m a.
Proof. intros H. unfold uint_at, load32. rewrite !H by lia. reflexivity. Qed.
Lemma uint_at_store32 m a v : v < two32 -> uint_at (store32 m a v) a = N.to_nat v.
Proof. intros H. apply uint_at_store with m; auto. Qed.
Lemma store32_out m a v b : (b < a \/ a + 4 <= b)%nat -> store32 m a v b = m b.
Proof. intros H. rewrite store32_wr. apply wr_out. unfold le32. cbn [length]. lia. Qed.

(* -- positions of blocks ---------------------------------------------------- *)
Lemma position_0 {A} (bs : list (list A)) : position bs 0 = 0%nat.
Proof. reflexivity. Qed.
Lemma position_S {A} (bs : list (list A)) : forall i, (i < length bs)%nat ->
  position bs (S i) = (position bs i + length (nth i bs []))%nat.
Proof.
  unfold position. induction bs as [|b bs IH]; intros i Hi; simpl in Hi; [lia|].
  destruct i as [|i]; [simpl; rewrite app_length; simpl; lia|].
  change (length (b ++ concat (firstn (S i) bs)) = length (b ++ concat (firstn i bs)) + length (nth i bs []))%nat.
  rewrite !app_length, IH by lia. lia.
Qed.
Lemma position_end {A} (bs : list (list A)) : position bs (length bs) = length (concat bs).
Proof. unfold position. now rewrite firstn_all. Qed.
Lemma position_mono {A} (bs : list (list A)) i j : (i <= j <= length bs)%nat -> (position bs i <= position bs j)%nat.
Proof.
  intros H. destruct H as [H1 H2]. revert H2. induction H1 as [|j H1 IH]; intros H2; [lia|].
  rewrite position_S by lia. lia.
Qed.
Lemma position_le {A} (bs : list (list A)) i : (i <= length bs)%nat -> (position bs i <= length (concat bs))%nat.
Proof. intros H. rewrite <- position_end. apply position_mono. lia. Qed.
Lemma position_nth {A} (bs : list (list A)) d : forall i j, (i < length bs)%nat -> (j < length (nth i bs []))%nat ->
  nth (position bs i + j) (concat bs) d = nth j (nth i bs []) d.
Proof.
  unfold position. induction bs as [|b bs IH]; intros i j Hi Hj; simpl in Hi; [lia|].
  destruct i as [|i]; cbn [firstn concat nth] in *.
  - simpl. now rewrite app_nth1.
  - rewrite app_length. rewrite app_nth2 by lia.
    rewrite <- IH by lia. f_equal. lia.
Qed.
Lemma position_find {A} (bs : list (list A)) : forall k, (k < length (concat bs))%nat ->
  exists i, (i < length bs)%nat /\ (position bs i <= k < position bs (S i))%nat.
Proof.
  unfold position. induction bs as [|b bs IH]; intros k Hk; cbn [concat length] in Hk; [simpl in Hk; lia|].
  rewrite app_length in Hk. destruct (Nat.lt_ge_cases k (length b)) as [H|H].
  - exists 0%nat. simpl. rewrite app_length. simpl. lia.
  - destruct (IH (k - length b)%nat) as (i & H1 & H2); [lia|].
    exists (S i). cbn [firstn concat length] in *. rewrite !app_length. simpl in H2. lia.
Qed.

Section AM.
  Variable B : nat.
  Hypothesis HB : (1 <= B)%nat.
  Variable aw : awty.
  Hypothesis Haw : aw = AEmpty \/ aw = AInt.
  Variable src : N.
  Hypothesis Hsrc : src < two32.
  Notation w := (weights_of aw).
  Notation en := (enc (weights_of aw) src).

  Lemma am_eW_eat m a : am_eW aw m a = eatWeight w m a.
  Proof. destruct Haw as [-> | ->]; reflexivity. Qed.
  Lemma am_wB m off l : ok w l ->
    writeBlock am_cF (am_cW aw) m off src l = Some (wr m off (en l), (off + length (en l))%nat).
  Proof.
    intros H. apply writeBlock_writes with (near1 := fun _ _ => True); auto.
    - intros. unfold am_cF. now rewrite compressFirstEdge_writes.
    - intros m0 off0 x _. rewrite <- compressWeight_writes. destruct Haw as [-> | ->]; reflexivity.
    - apply Forall_forall. auto.
  Qed.

  (* -- layout -------------------------------------------------------------- *)
  Record lay (m : mem) (a nb : nat) (p : nat -> nat) : Prop := {
    lay_0 : p 0%nat = (4 * nb)%nat;
    lay_tab : forall i, (S i < nb)%nat -> uint_at m (a + 4 + 4 * i) = p (S i);
    lay_gap : forall i, (i < nb)%nat -> (p i + 4 <= p (S i))%nat
  }.
  Lemma lay_mono m a nb p i j : lay m a nb p -> (i <= j <= nb)%nat -> (p i <= p j)%nat.
  Proof.
    intros H [H1 H2]. revert H2. induction H1 as [|j H1 IH]; intros H2; [lia|].
    pose proof (lay_gap H (i := j) ltac:(lia)). lia.
  Qed.
  Lemma lay_lt m a nb p i j : lay m a nb p -> (i < j <= nb)%nat -> (p i + 4 <= p j)%nat.
  Proof.
    intros H H1. pose proof (lay_gap H (i := i) ltac:(lia)). pose proof (@lay_mono m a nb p (S i) j H ltac:(lia)). lia.
  Qed.
  Lemma lay_ge m a nb p i : lay m a nb p -> (i <= nb)%nat -> (4 * nb <= p i)%nat.
  Proof. intros H Hi. rewrite <- (lay_0 H). apply (lay_mono H). lia. Qed.
  Lemma lay_finger m a nb p i : (1 <= nb)%nat -> lay m a nb p -> (i < nb)%nat -> am_finger m a nb i = (a + p i)%nat.
  Proof.
    intros Hnb H Hi. unfold am_finger. destruct i as [|i].
    - rewrite (lay_0 H). lia.
    - now rewrite (lay_tab H).
  Qed.
  Lemma lay_ext m m' a nb p : (forall b, (a + 4 <= b < a + 4 * nb)%nat -> m' b = m b) -> lay m a nb p -> lay m' a nb p.
  Proof.
    intros He H. split; [apply (lay_0 H)| |apply (lay_gap H)].
    intros i Hi. rewrite (@uint_at_ext m m'); [now apply (lay_tab H)|]. intros b Hb. apply He. lia.
  Qed.

  (* blocks bs of a vertex at address a, using the bytes [a, a + p nb) *)
  Record stored (m : mem) (a vd : nat) (p : nat -> nat) (bs : list (list edge)) : Prop := {
    st_vd : uint_at m a = vd;
    st_pos : (1 <= vd)%nat;
    st_nb : length bs = nblocks B vd;
    st_lay : lay m a (length bs) p;
    st_hdr : forall i, (i < length bs)%nat -> uint_at m (a + p i) = position bs i;
    st_cont : forall i, (i < length bs)%nat -> holds m (a + p i + 4) (en (nth i bs []));
    st_fit : forall i, (i < length bs)%nat -> (p i + 4 + length (en (nth i bs [])) <= p (S i))%nat;
    st_ok : ok w (concat bs);
    st_len : Forall (fun b => length b <= B)%nat bs;
    st_small : (length (concat bs) <= vd)%nat;
    st_size : 18 * N.of_nat vd < two32
  }.

  Lemma st_nb1 m a vd p bs : stored m a vd p bs -> (1 <= length bs)%nat.
  Proof. intros H. rewrite (st_nb H). unfold nblocks. lia. Qed.
  Lemma st_am_nb m a vd p bs : stored m a vd p bs -> am_nb B m a = length bs.
  Proof. intros H. unfold am_nb. now rewrite (st_vd H), (st_nb H). Qed.

  Lemma ok_app_l l1 l2 : ok w (l1 ++ l2) -> ok w l1.
  Proof. intros H. replace l1 with (firstn (length l1) (l1 ++ l2)); [now apply ok_first|]. rewrite firstn_app, Nat.sub_diag, firstn_all. cbn. apply app_nil_r. Qed.
  Lemma ok_app_r l1 l2 : ok w (l1 ++ l2) -> ok w l2.
  Proof. intros H. replace l2 with (skipn (length l1) (l1 ++ l2)); [now apply ok_skip|]. rewrite skipn_app, Nat.sub_diag, skipn_all. reflexivity. Qed.
  Lemma ok_nth bs : forall i, ok w (concat bs) -> ok w (nth i bs []).
  Proof.
    induction bs as [|b bs IH]; intros i H; [destruct i; exact I|].
    cbn [concat] in H. destruct i; cbn [nth]; [now apply ok_app_l in H|]. apply IH. now apply ok_app_r in H.
  Qed.

  (* -- reading --------------------------------------------------------------- *)
  Lemma st_start m a vd p bs i : stored m a vd p bs -> (i < length bs)%nat ->
    am_start m a (length bs) i = position bs i.
  Proof.
    intros H Hi. unfold am_start. rewrite (lay_finger (st_nb1 H) (st_lay H)) by auto. now apply (st_hdr H).
  Qed.
  Lemma st_end m a vd p bs i : stored m a vd p bs -> (i < length bs)%nat ->
    am_end m a (length bs) (length (concat bs)) i = position bs (S i).
  Proof.
    intros H Hi. unfold am_end. destruct (Nat.eqb_spec i (length bs - 1)) as [E|E].
    - rewrite <- position_end. f_equal. lia.
    - rewrite (lay_tab (st_lay H)) by lia. apply (st_hdr H). lia.
  Qed.
  Lemma st_walk t m a vd p bs i : stored m a vd p bs -> (i < length bs)%nat ->
    am_walk aw t m a src (length bs) (length (concat bs)) i
    = Some (calls_of t bs i, all_true t (position bs i) (nth i bs [])).
  Proof.
    intros H Hi. unfold am_walk. rewrite (st_start H), (st_end H), position_S by auto.
    unfold calls_of. destruct (nth i bs []) as [|e0 b] eqn:Eb.
    - cbn [length]. rewrite Nat.add_0_r, Nat.ltb_irrefl. reflexivity.
    - rewrite <- Eb. assert (Hl : (0 < length (nth i bs []))%nat) by (rewrite Eb; simpl; lia).
      rewrite (proj2 (Nat.ltb_lt _ _)) by lia.
      replace (position bs i + length (nth i bs []) - position bs i)%nat with (length (nth i bs [])) by lia.
      rewrite (lay_finger (st_nb1 H) (st_lay H)) by auto.
      apply (walkBlock_run w); auto.
      + intros. apply am_eW_eat.
      + apply ok_nth. apply (st_ok H).
      + rewrite Eb. discriminate.
      + now apply (st_cont H).
  Qed.
  Lemma st_read m a vd p bs i : stored m a vd p bs -> (i < length bs)%nat ->
    am_read aw m a src (length bs) (length (concat bs)) i = Some (nth i bs []).
  Proof.
    intros H Hi. unfold am_read. rewrite (st_walk _ H) by auto. unfold calls_of. now rewrite upto_true_edges.
  Qed.
  Lemma am_nonempty_deg (bs : list (list edge)) : concat bs <> [] -> exists n, length (concat bs) = S n.
  Proof. destruct (concat bs); [congruence|]. intros. simpl. eauto. Qed.

  Lemma map_nth_seq_gen {A C} (f : A -> C) (d : A) (l : list A) : map (fun i => f (nth i l d)) (seq 0 (length l)) = map f l.
  Proof.
    induction l as [|x l IH]; [reflexivity|]. cbn [length seq map nth]. f_equal.
    rewrite <- seq_shift, map_map. exact IH.
  Qed.

  Lemma decode_unweighted_run t m a vd p bs : stored m a vd p bs -> concat bs <> [] ->
    am_decode_unweighted B aw t m a src (length (concat bs))
    = Some (if all_true t 0 (nth 0 bs [])
            then map (calls_of t bs) (seq 0 (length bs)) else [calls_of t bs 0]).
  Proof.
    intros H Hne. unfold am_decode_unweighted. destruct (am_nonempty_deg _ Hne) as [n En]. rewrite En at 1.
    pose proof (st_nb1 H) as Hnb.
    rewrite (st_am_nb H). rewrite (st_walk _ H) by lia. rewrite position_0.
    destruct (all_true t 0 (nth 0 bs [])); auto.
    rewrite for_blocks_some with (g := calls_of t bs).
    - f_equal. replace (length bs) with (S (length bs - 1)) at 2 by lia. reflexivity.
    - intros j Hj. rewrite (st_walk _ H) by lia. reflexivity.
  Qed.
  Lemma upto_app t l1 : forall id l2, upto t id (l1 ++ l2)
    = upto t id l1 ++ if all_true t id l1 then upto t (id + length l1) l2 else [].
  Proof.
    induction l1 as [|[v x] l1 IH]; intros id l2; simpl; [now rewrite Nat.add_0_r|].
    destruct (t v x id); simpl; auto. rewrite IH. do 3 f_equal. now rewrite Nat.add_succ_r.
  Qed.
  Lemma seq_run t m a vd p bs : stored m a vd p bs -> forall k i, (i + k = length bs)%nat ->
    am_seq aw t m a src (length bs) (length (concat bs)) i k
    = Some (upto t (position bs i) (concat (skipn i bs))).
  Proof.
    intros H. induction k as [|k IH]; intros i Hi.
    - rewrite skipn_all2 by lia. reflexivity.
    - cbn [am_seq]. rewrite (st_walk _ H) by lia.
      assert (Es : skipn i bs = nth i bs [] :: skipn (S i) bs).
      { clear -Hi. revert i Hi. induction bs as [|b bs IH]; intros i Hi; [simpl in Hi; lia|].
        destruct i as [|i]; [reflexivity|]. cbn [skipn nth]. rewrite (IH i) by (simpl in Hi; lia). reflexivity. }
      rewrite Es. cbn [concat]. rewrite upto_app. fold (calls_of t bs i).
      destruct (all_true t (position bs i) (nth i bs [])).
      + rewrite IH by lia. now rewrite position_S by lia.
      + now rewrite app_nil_r.
  Qed.
  Lemma decode_weighted_run t m a vd p bs : stored m a vd p bs -> concat bs <> [] ->
    am_decode_weighted B aw t m a src (length (concat bs)) = Some (upto t 0 (concat bs)).
  Proof.
    intros H Hne. unfold am_decode_weighted. destruct (am_nonempty_deg _ Hne) as [n En]. rewrite En at 1.
    rewrite (st_am_nb H). rewrite (seq_run _ H) by lia. reflexivity.
  Qed.
  Lemma decode_block_run t m a vd p bs i : stored m a vd p bs -> concat bs <> [] -> (i < length bs)%nat ->
    am_decode_block B aw t m a src (length (concat bs)) i = Some (calls_of t bs i).
  Proof.
    intros H Hne Hi. unfold am_decode_block. destruct (am_nonempty_deg _ Hne) as [n En]. rewrite En at 1.
    rewrite (st_am_nb H). now rewrite (st_walk _ H).
  Qed.
  Lemma concat_nth_seq {A} (bs : list (list A)) : concat (map (fun i => nth i bs []) (seq 0 (length bs))) = concat bs.
  Proof. f_equal. etransitivity; [apply (map_nth_seq_gen (fun b => b))|apply map_id]. Qed.
  Lemma map_reduce_run {E} (f : N -> Z -> E) (red : E -> E -> E) (id : E) m a vd p bs :
    (forall x y z, red x (red y z) = red (red x y) z) -> (forall x, red id x = x) -> (forall x, red x id = x) ->
    stored m a vd p bs -> concat bs <> [] ->
    am_map_reduce B aw f red id m a src (length (concat bs))
    = Some (fold_left red (map (fun e => f (fst e) (snd e)) (concat bs)) id).
  Proof.
    intros Ha Hl Hr H Hne. unfold am_map_reduce. destruct (am_nonempty_deg _ Hne) as [n En]. rewrite En at 1.
    rewrite (st_am_nb H).
    rewrite for_blocks_some with (g := fun i => fold_left red (map (fun e => f (fst e) (snd e)) (nth i bs [])) id).
    - f_equal. rewrite <- (map_map (fun i => map (fun e : edge => f (fst e) (snd e)) (nth i bs [])) (fun l => fold_left red l id)).
      rewrite fold_concat by auto. f_equal.
      rewrite <- (map_map (fun i => nth i bs []) (map (fun e : edge => f (fst e) (snd e)))).
      rewrite <- concat_map. now rewrite concat_nth_seq.
    - intros i Hi. rewrite (st_read H) by lia. simpl. f_equal.
      generalize id. induction (nth i bs []); intros; simpl; auto.
  Qed.
  Lemma filter_run' pred m a vd p bs : stored m a vd p bs -> concat bs <> [] ->
    am_filter B aw pred m a src (length (concat bs)) = Some (keep pred (concat bs)).
  Proof.
    intros H Hne. unfold am_filter. destruct (am_nonempty_deg _ Hne) as [n En]. rewrite En at 1.
    rewrite (st_am_nb H).
    rewrite for_blocks_some with (g := fun i => nth i bs []).
    - cbn [option_map]. f_equal. rewrite concat_filter. now rewrite concat_nth_seq.
    - intros i Hi. apply (st_read H). lia.
  Qed.
  Lemma block_degree_run m a vd p bs i : stored m a vd p bs -> concat bs <> [] -> (i < length bs)%nat ->
    am_get_num_blocks B m a (length (concat bs)) = length bs /\
    am_get_block_degree B m a (length (concat bs)) i = length (nth i bs []).
  Proof.
    intros H Hne Hi. unfold am_get_num_blocks, am_get_block_degree.
    destruct (am_nonempty_deg _ Hne) as [n En]. rewrite En at 1 2.
    rewrite (st_am_nb H). split; auto. rewrite (st_end H) by auto. destruct i as [|i].
    - rewrite position_S, position_0 by lia. lia.
    - rewrite (st_end H) by lia. rewrite (position_S bs (i := S i)) by lia. lia.
  Qed.
End AM.
