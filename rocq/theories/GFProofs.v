(* The graph files: integers, sizes of the encodings, writing the vertices in any order. *)
From Verif Require Import Base ListUtil CodecModel CodecSpec CodecProofs CodecList PDModel PDSpec PDProofs
  AMModel AMSpec AMProofs AMWrite GFModel GFSpec.
From Coq Require Import NArith ZArith Lia Sorted Permutation.
Unset Strict Implicit.
Local Open Scope N_scope.

(* -- integers --------------------------------------------------------------- *)
Lemma le_length k : forall x, length (le k x) = k.
Proof. induction k as [|k IH]; intros x; cbn [le length]; auto. Qed.
Lemma load_le k : forall m a x, holds m a (le k x) -> load k m a = x mod 256 ^ N.of_nat k.
Proof.
  induction k as [|k IH]; intros m a x H; cbn [le load] in *.
  - symmetry. apply N.mod_1_r.
  - apply holds_cons in H as [H1 H2]. rewrite H1, (IH _ _ _ H2).
    replace (N.of_nat (S k)) with (N.succ (N.of_nat k)) by lia. rewrite N.pow_succ_r'.
    rewrite N.mod_mul_r; [reflexivity|discriminate|]. apply N.pow_nonzero. discriminate.
Qed.
Lemma les_length k xs : length (les k xs) = (k * length xs)%nat.
Proof.
  unfold les. induction xs as [|x xs IH]; cbn [flat_map length]; [lia|].
  rewrite app_length, le_length, IH. lia.
Qed.
Lemma load_les k xs : forall m a i, holds m a (les k xs) -> (i < length xs)%nat ->
  load k m (a + k * i) = N.of_nat (nth i xs 0%nat) mod 256 ^ N.of_nat k.
Proof.
  induction xs as [|x xs IH]; intros m a i H Hi; cbn [length] in Hi; [lia|].
  unfold les in H. cbn [flat_map] in H. apply holds_app in H as [H1 H2]. rewrite le_length in H2.
  destruct i as [|i]; cbn [nth].
  - rewrite Nat.mul_0_r, Nat.add_0_r. now apply load_le.
  - rewrite <- (IH m (a + k)%nat i); [|exact H2|lia]. f_equal. lia.
Qed.
Lemma holds_0 m file : file_at m file -> holds m 0 file.
Proof. intros H i Hi. apply H, Hi. Qed.
Lemma holds_map m (f : mem) a k : holds m a (map f (seq 0 k)) -> forall b, (b < k)%nat -> m (a + b)%nat = f b.
Proof.
  intros H b Hb. rewrite (H b) by (now rewrite map_length, seq_length). now apply nth_map_seq.
Qed.

(* -- prefix sums -------------------------------------------------------------- *)
Lemma prefix_S xs i : (i < length xs)%nat -> prefix xs (S i) = (prefix xs i + nth i xs 0)%nat.
Proof.
  unfold prefix. revert i. induction xs as [|x xs IH]; intros i Hi; cbn [length] in Hi; [lia|].
  destruct i as [|i]; cbn [firstn nth list_sum fold_right].
  - lia.
  - cbn [firstn] in IH. unfold list_sum in *. cbn [fold_right]. rewrite IH by lia. lia.
Qed.
Lemma prefix_over xs i : (length xs <= i)%nat -> prefix xs i = list_sum xs.
Proof. intros H. unfold prefix. now rewrite firstn_all2. Qed.
Lemma prefix_mono xs i j : (i <= j)%nat -> (prefix xs i <= prefix xs j)%nat.
Proof.
  intros H. induction H as [|j H IH]; auto. etransitivity; [exact IH|].
  destruct (Nat.lt_ge_cases j (length xs)) as [Hj|Hj].
  - rewrite prefix_S by auto. lia.
  - rewrite !prefix_over by lia. auto.
Qed.
Lemma prefix_le xs i : (prefix xs i <= list_sum xs)%nat.
Proof.
  destruct (Nat.lt_ge_cases i (length xs)) as [H|H].
  - rewrite <- (@prefix_over xs (length xs)) by auto. apply prefix_mono. lia.
  - now rewrite prefix_over.
Qed.

Lemma last_cons {A} (xs : list A) : forall x d, List.last (x :: xs) d = List.last xs x.
Proof.
  induction xs as [|y ys IH]; intros x d; [reflexivity|].
  change (List.last (x :: y :: ys) d) with (List.last (y :: ys) d). now rewrite !IH.
Qed.

Section Sizes.
  Variable B : nat.
  Hypothesis HB : (1 <= B)%nat.
  Variable aw : awty.
  Hypothesis Haw : aw = AEmpty \/ aw = AInt.
  Notation w := (weights_of aw).

  Lemma cW_writes m off x : am_cW aw m off x = Some (wr m off (wbytes w x), (off + length (wbytes w x))%nat).
  Proof.
    destruct Haw as [-> | ->]; cbn [am_cW weights_of wbytes].
    - cbn [wr length]. now rewrite Nat.add_0_r.
    - rewrite compressFirstEdge_writes. now rewrite Z.sub_0_r.
  Qed.
  Lemma edge_first src deg last v x : (deg mod B = 0)%nat ->
    edge_bytes B aw src deg last (v, x) = Some (length (sbytes (Z.of_N v - Z.of_N src) ++ wbytes w x)).
  Proof.
    intros Hd. unfold edge_bytes. cbn [fst snd]. rewrite Hd. cbn [Nat.eqb]. unfold am_cF.
    rewrite compressFirstEdge_writes, cW_writes, app_length.
    pose proof (sbytes_len (Z.of_N v - Z.of_N src)). pose proof (wbytes_len w x).
    destruct (Nat.ltb_spec 16 (0 + length (sbytes (Z.of_N v - Z.of_N src)) + length (wbytes w x))%nat); [lia|].
    reflexivity.
  Qed.
  Lemma edge_gap src deg last v x : (deg mod B <> 0)%nat -> last < v -> v < two32 ->
    edge_bytes B aw src deg last (v, x) = Some (length (vbytes (v - last) ++ wbytes w x)).
  Proof.
    intros Hd Hl Hv. unfold edge_bytes. cbn [fst snd]. destruct (Nat.eqb_spec (deg mod B) 0); [lia|].
    rewrite diff32 by auto. rewrite compressEdge_writes, cW_writes, app_length.
    assert (length (vbytes (v - last)) <= 5)%nat by (apply vbytes_len; lia). pose proof (wbytes_len w x).
    destruct (Nat.ltb_spec 16 (0 + length (vbytes (v - last)) + length (wbytes w x))%nat); [lia|].
    reflexivity.
  Qed.
  Lemma edges_app src l1 : forall deg last l2 t,
    edges_bytes B aw src deg last (l1 ++ l2) t =
    match edges_bytes B aw src deg last l1 t with
    | None => None
    | Some t' => edges_bytes B aw src (deg + length l1) (List.last (map fst l1) last) l2 t'
    end.
  Proof.
    induction l1 as [|e l1 IH]; intros deg last l2 t; cbn [app edges_bytes length map].
    - cbn. now rewrite Nat.add_0_r.
    - destruct (edge_bytes B aw src deg last e) as [b|]; auto. rewrite IH.
      destruct (edges_bytes B aw src (S deg) (fst e) l1 (t + b)) as [t'|]; auto.
      replace (S deg + length l1)%nat with (deg + S (length l1))%nat by lia.
      f_equal. symmetry. apply last_cons.
  Qed.
  Lemma edges_rest src l : forall deg last t, okRest w last l -> (deg mod B <> 0)%nat ->
    (deg mod B + length l <= B)%nat ->
    edges_bytes B aw src deg last l t = Some (t + length (encRest w last l))%nat.
  Proof.
    induction l as [|[v x] l IH]; intros deg last t Hok Hd Hl; cbn [edges_bytes encRest length] in *.
    - f_equal. lia.
    - destruct Hok as (H1 & H2 & H3 & H4). rewrite edge_gap by auto. cbn [fst].
      destruct l as [|e l].
      + cbn [edges_bytes encRest]. rewrite app_nil_r. reflexivity.
      + assert (Hm : (S deg mod B = S (deg mod B))%nat).
        { cbn [length] in Hl. pose proof (Nat.div_mod deg B ltac:(lia)) as E.
          rewrite E at 1. rewrite <- Nat.add_succ_r, Nat.mul_comm, Nat.add_comm, Nat.mod_add by lia.
          apply Nat.mod_small. lia. }
        rewrite IH; auto.
        * f_equal. rewrite !app_length. lia.
        * rewrite Hm. discriminate.
        * rewrite Hm. cbn [length] in *. lia.
  Qed.
  Lemma edges_block src l deg last t : ok w l -> (deg mod B = 0)%nat -> (length l <= B)%nat ->
    edges_bytes B aw src deg last l t = Some (t + length (enc w src l))%nat.
  Proof.
    destruct l as [|[v x] l]; intros Hok Hd Hl; cbn [edges_bytes enc length] in *.
    - f_equal. lia.
    - destruct Hok as (H2 & H3 & H4). rewrite edge_first by auto. cbn [fst].
      destruct l as [|e l].
      + cbn [edges_bytes encRest]. rewrite app_nil_r. reflexivity.
      + assert (Hm : (S deg mod B = 1)%nat).
        { cbn [length] in Hl. pose proof (Nat.div_mod deg B ltac:(lia)) as E. rewrite Hd in E.
          rewrite E at 1. rewrite <- Nat.add_succ_r, Nat.mul_comm, Nat.add_comm, Nat.mod_add by lia.
          apply Nat.mod_small. lia. }
        rewrite edges_rest; auto.
        * f_equal. rewrite !app_length. lia.
        * rewrite Hm. discriminate.
        * rewrite Hm. cbn [length] in *. lia.
  Qed.
  Lemma edges_blocks src L k : ok w L -> (0 < length L)%nat -> forall i last t,
    (i + k = nblocks B (length L))%nat ->
    edges_bytes B aw src (i * B) last (skipn (i * B) L) t =
    Some (t + (place B aw src L (nblocks B (length L)) - place B aw src L i - 4 * k))%nat.
  Proof.
    intros Hok HL. induction k as [|k IH]; intros i last t Hi.
    - rewrite skipn_all2; [cbn [edges_bytes]; f_equal; replace i with (nblocks B (length L)) by lia; lia|].
      replace i with (nblocks B (length L)) by lia. apply nblocks_cover, HB.
    - assert (E : skipn (i * B) L = block B i L ++ skipn (S i * B) L).
      { unfold block. rewrite <- (firstn_skipn B (skipn (i * B) L)) at 1. f_equal.
        rewrite skipn_skipn'. f_equal. lia. }
      pose proof (@nblocks_lt B HB (length L) i HL ltac:(lia)) as HiB.
      rewrite E, edges_app, edges_block.
      + cbv beta iota. rewrite (block_length HB). unfold pd_count.
        destruct k as [|k].
        * rewrite skipn_all2 by (replace (S i) with (nblocks B (length L)) by lia; apply nblocks_cover, HB).
          cbn [edges_bytes]. f_equal. replace (nblocks B (length L)) with (S i) by lia. cbn [place]. lia.
        * pose proof (@nblocks_lt B HB (length L) (S i) HL ltac:(lia)) as HsB.
          replace (i * B + (Nat.min (i * B + B) (length L) - i * B))%nat with (S i * B)%nat by (cbn in *; lia).
          rewrite (IH (S i)) by lia. f_equal.
          assert (H2 : (place B aw src L (S i) + 4 * S k <= place B aw src L (nblocks B (length L)))%nat).
          { clear - Hi. replace (nblocks B (length L)) with (S i + S k)%nat by lia. clear Hi.
            generalize (S k) as q. induction q as [|q IH]; [replace (S i + 0)%nat with (S i) by lia; lia|].
            rewrite Nat.add_succ_r. cbn [place] in *. lia. }
          cbn [place] in *. lia.
      + apply ok_first, ok_skip, Hok.
      + rewrite Nat.mod_mul; lia.
      + rewrite (block_length HB). unfold pd_count. lia.
  Qed.

  (* the bytes of a vertex *)
  Definition vsize (src : N) (l : list edge) : nat :=
    match l with [] => O | _ => place B aw src l (nblocks B (length l)) end.
  Lemma vertex_bytes_eq src l : ok w l -> vertex_bytes B aw src l = Some (vsize src l).
  Proof.
    intros Hok. unfold vertex_bytes, vsize. destruct l as [|e0 l0] eqn:El; [reflexivity|].
    rewrite <- El in *. assert (HL : (0 < length l)%nat) by (subst; simpl; lia).
    pose proof (@edges_blocks src l (nblocks B (length l)) Hok HL 0 0 0 eq_refl) as E.
    cbn [Nat.mul skipn] in E. rewrite E.
    assert (Hnb : (1 <= nblocks B (length l))%nat) by (unfold nblocks; lia).
    destruct l as [|e1 l1]; [discriminate|]. f_equal.
    set (L := e1 :: l1) in *. set (nb := nblocks B (length L)) in *.
    assert (H2 : (place B aw src L 0 + 4 * nb <= place B aw src L nb)%nat).
    { clear. generalize nb as q. induction q as [|q IH]; [lia|]. cbn [place] in *. lia. }
    cbn [place] in *. fold nb in H2 |- *. lia.
  Qed.
  Lemma all_bytes_eq g : forall i, Forall (ok w) g ->
    exists sizes, all_bytes B aw i g = Some sizes /\ length sizes = length g /\
      forall j, (j < length g)%nat -> nth j sizes O = vsize (N.of_nat (i + j)) (nth j g []).
  Proof.
    induction g as [|l g IH]; intros i Hok; cbn [all_bytes].
    - exists []. repeat split. intros j Hj. simpl in Hj. lia.
    - inversion Hok; subst. destruct (IH (S i)) as (sizes & E & El & Hn); auto.
      rewrite vertex_bytes_eq, E by auto. exists (vsize (N.of_nat i) l :: sizes).
      split; auto. split; [simpl; now rewrite El|].
      intros [|j] Hj; cbn [nth]; [now rewrite Nat.add_0_r|]. rewrite Hn by (simpl in Hj; lia).
      f_equal. f_equal. lia.
  Qed.
  Lemma vsize_le src l : src < two32 -> ok w l -> (vsize src l <= 18 * length l)%nat.
  Proof.
    intros Hs Hok. unfold vsize. destruct l as [|e0 l0] eqn:El; [lia|]. rewrite <- El in *.
    apply place_size; auto. subst. simpl. lia.
  Qed.

  (* -- moving an encoding to another address ------------------------------------- *)
  Lemma stored_move src m a vd p bs m' a' : src < two32 -> stored B aw src m a vd p bs ->
    (forall b, (b < p (length bs))%nat -> m' (a' + b)%nat = m (a + b)%nat) -> stored B aw src m' a' vd p bs.
  Proof.
    intros Hsrc H Hm.
    assert (Hnb : (1 <= length bs)%nat) by (rewrite (st_nb H); unfold nblocks; lia).
    pose proof (@lay_ge B HB src Hsrc m a (length bs) p (length bs) (st_lay H) ltac:(auto)) as Hge.
    assert (Hu : forall k, (k + 4 <= p (length bs))%nat -> uint_at m' (a' + k) = uint_at m (a + k)).
    { intros k Hk. unfold uint_at, load32. rewrite <- !Nat.add_succ_r. now rewrite !Hm by lia. }
    split.
    - rewrite <- (st_vd H). specialize (Hu O). rewrite !Nat.add_0_r in Hu. apply Hu. lia.
    - apply (st_pos H).
    - apply (st_nb H).
    - split; [apply (lay_0 (st_lay H))| |apply (lay_gap (st_lay H))].
      intros i Hi. rewrite <- (lay_tab (st_lay H) Hi). rewrite <- !Nat.add_assoc. apply Hu. lia.
    - intros i Hi. rewrite <- (st_hdr H Hi). apply Hu.
      pose proof (@lay_lt B HB src Hsrc m a (length bs) p i (length bs) (st_lay H) ltac:(lia)). lia.
    - intros i Hi k Hk. rewrite <- (st_cont H Hi Hk). rewrite <- !Nat.add_assoc. apply Hm.
      pose proof (st_fit H Hi). pose proof (@lay_mono B HB src Hsrc m a (length bs) p (S i) (length bs) (st_lay H) ltac:(lia)). lia.
    - apply (st_fit H).
    - apply (st_ok H).
    - apply (st_len H).
    - apply (st_small H).
    - apply (st_size H).
  Qed.

  (* -- filling a slab --------------------------------------------------------------- *)
  Variable g : list (list edge).
  Hypothesis Hg : Forall (fun l => ok w l /\ 18 * N.of_nat (length l) < two32) g.
  Hypothesis Hn : N.of_nat (length g) <= two32.
  Variable sizes : list nat.
  Hypothesis Hsizes : length sizes = length g.
  Hypothesis Hsz : forall j, (j < length g)%nat -> nth j sizes O = vsize (N.of_nat j) (nth j g []).
  Notation offs := (prefix sizes).
  Definition put (m : mem) (at_ : nat -> nat) (j : nat) : Prop :=
    nth j g [] <> [] ->
    stored B aw (N.of_nat j) m (at_ j) (length (nth j g [])) (place B aw (N.of_nat j) (nth j g [])) (blocks B (nth j g [])).

  Lemma g_nth j : (j < length g)%nat -> ok w (nth j g []) /\ 18 * N.of_nat (length (nth j g [])) < two32.
  Proof. intros Hj. rewrite Forall_forall in Hg. apply Hg. now apply nth_In. Qed.
  Lemma offs_S j : (j < length g)%nat -> offs (S j) = (offs j + vsize (N.of_nat j) (nth j g []))%nat.
  Proof. intros Hj. rewrite prefix_S, Hsz by lia. reflexivity. Qed.

  Lemma fill_run s e ord : (s <= e <= length g)%nat -> forall m,
    NoDup ord -> (forall j, In j ord -> (s <= j < e)%nat) ->
    exists m', fill B aw ord offs (offs s) (offs e - offs s) g m = Some m' /\
      (forall j, In j ord -> put m' (fun j => offs j - offs s)%nat j) /\
      (forall b, (forall j, In j ord -> (b < offs j - offs s \/ offs (S j) - offs s <= b)%nat) -> m' b = m b).
  Proof.
    intros Hse. induction ord as [|j ord IH]; intros m Hnd Hin; cbn [fill].
    { exists m. split; auto. split; [intros j []|auto]. }
    inversion Hnd as [|? ? Hj0 Hnd']; subst. assert (Hj : (s <= j < e)%nat) by (apply Hin; now left).
    assert (Hj2 : (j < length g)%nat) by lia.
    assert (Hin' : forall k, In k ord -> (s <= k < e)%nat) by (intros k Hk; apply Hin; now right).
    pose proof (prefix_mono sizes (i := s) (j := j) ltac:(lia)) as M1.
    pose proof (prefix_mono sizes (i := S j) (j := e) ltac:(lia)) as M2.
    pose proof (offs_S Hj2) as ES.
    destruct (nth j g []) as [|e0 l0] eqn:El.
    - destruct (IH m Hnd' Hin') as (m' & E & Hp & Hf). exists m'. split; auto. split.
      + intros k [<-|Hk]; auto. unfold put. rewrite El. congruence.
      + intros b Hb. apply Hf. intros k Hk. apply Hb. now right.
    - cbv zeta. rewrite <- El in *. set (l := nth j g []) in *.
      assert (Hjs : N.of_nat j < two32) by lia.
      destruct (g_nth Hj2) as [Hok Hl]. fold l in Hok, Hl.
      destruct (@compress_run B HB aw Haw (N.of_nat j) Hjs m (offs j - offs s) l Hok Hl) as (m1 & e1 & E1 & He1 & Hf1 & Hst).
      assert (Hne : l <> []) by (rewrite El; discriminate). destruct (Hst Hne) as [Ee Hst'].
      assert (Ev : vsize (N.of_nat j) l = place B aw (N.of_nat j) l (nblocks B (length l))).
      { unfold vsize. clearbody l. destruct l; [congruence|reflexivity]. }
      rewrite Ev in ES. rewrite E1.
      destruct (Nat.ltb_spec (offs e - offs s) e1) as [Hlt|Hge]; [lia|].
      destruct (Nat.eqb_spec (e1 - (offs j - offs s)) (offs (S j) - offs j)) as [_|Hne']; [|lia].
      destruct (IH m1 Hnd' Hin') as (m' & E & Hp & Hf). exists m'. split; auto. split.
      + intros k [<-|Hk]; auto. intros _. fold l. apply Hst'.
        intros b Hb. apply Hf. intros k Hk. assert (k <> j) by congruence.
        destruct (Nat.lt_ge_cases k j) as [Hkj|Hkj].
        * pose proof (prefix_mono sizes (i := S k) (j := j) ltac:(lia)). lia.
        * pose proof (prefix_mono sizes (i := S j) (j := k) ltac:(lia)). lia.
      + intros b Hb. rewrite Hf by (intros k Hk; apply Hb; now right).
        apply Hf1. specialize (Hb j ltac:(now left)). lia.
  Qed.

  (* reading: the slab is copied to the address a of another memory *)
  Lemma put_move m m' s e a j : (s <= j < e)%nat -> (e <= length g)%nat ->
    put m (fun j => offs j - offs s)%nat j ->
    (forall b, (b < offs e - offs s)%nat -> m' (a + b)%nat = m b) ->
    put m' (fun j => a + (offs j - offs s))%nat j.
  Proof.
    intros Hj He Hp Hm Hne. assert (Hj2 : (j < length g)%nat) by lia. specialize (Hp Hne). cbv beta in Hp.
    eapply stored_move; [lia|exact Hp|]. intros b Hb. rewrite <- Nat.add_assoc. apply Hm.
    rewrite blocks_length in Hb. pose proof (offs_S Hj2) as ES. unfold vsize in ES.
    pose proof (prefix_mono sizes (i := S j) (j := e) ltac:(lia)) as M2.
    pose proof (prefix_mono sizes (i := s) (j := j) ltac:(lia)) as M1.
    destruct (nth j g []) as [|e0 l0]; [congruence|]. lia.
  Qed.
  Lemma offs_bound j : (j <= length g)%nat -> N.of_nat (offs j) < two32 * two32.
  Proof.
    intros Hj. assert (N.of_nat (offs j) <= N.of_nat j * (two32 - 1)); [|unfold two32 in *; lia].
    induction j as [|j IH]; [reflexivity|]. rewrite offs_S by lia.
    destruct (@g_nth j ltac:(lia)) as [Hok Hl].
    pose proof (@vsize_le (N.of_nat j) (nth j g []) ltac:(lia) Hok). specialize (IH ltac:(lia)). unfold two32 in *. lia.
  Qed.
End Sizes.
