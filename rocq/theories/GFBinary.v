(* The binary graph files, and the compressed files of the converter. *)
From Verif Require Import Base ListUtil CodecModel CodecSpec CodecProofs CodecList PDModel PDSpec PDProofs
  AMModel AMSpec AMProofs AMWrite GFModel GFSpec GFProofs GFFiles.
From Coq Require Import NArith ZArith Lia Sorted Permutation.
Unset Strict Implicit.
Local Open Scope N_scope.

(* -- tuples ------------------------------------------------------------------------ *)
Definition tup_ok (weighted : bool) (e : edge) : Prop :=
  fst e < two32 /\ if weighted then (-2147483648 <= snd e < 2147483648)%Z else snd e = 0%Z.
Lemma tup_length b e : length (tup b e) = tup_size b.
Proof. destruct b; cbn [tup tup_size]; rewrite ?app_length, !le_length; reflexivity. Qed.
Lemma int_of_z32 x : (-2147483648 <= x < 2147483648)%Z -> int_of (z32 x) = x.
Proof.
  intros H. unfold int_of, z32. destruct (Z.lt_ge_cases x 0) as [Hx|Hx].
  - replace (x mod 4294967296)%Z with (x + 4294967296)%Z.
    + destruct (N.ltb_spec (Z.to_N (x + 4294967296)) 2147483648); lia.
    + rewrite <- (Z.mod_add x 1 4294967296) by lia. rewrite Z.mod_small; lia.
  - rewrite Z.mod_small by lia. destruct (N.ltb_spec (Z.to_N x) 2147483648); lia.
Qed.
Lemma load_tup_run b m a e : tup_ok b e -> holds m a (tup b e) -> load_tup b m a = e.
Proof.
  intros [H1 H2] Hh. destruct e as [v x]. cbn [fst snd] in *. destruct b; cbn [tup load_tup fst snd] in *.
  - apply holds_app in Hh as [Hx Hv]. rewrite le_length in Hv.
    rewrite (Nat.add_comm 4 a), (load_le Hx), (load_le Hv), pow4.
    rewrite (N.mod_small v) by auto. rewrite N.mod_small, int_of_z32; auto.
    unfold z32. pose proof (Z.mod_pos_bound x 4294967296). unfold two32. lia.
  - rewrite (load_le Hh), pow4, N.mod_small by auto. now rewrite H2.
Qed.
Lemma tups_length b xs : length (flat_map (tup b) xs) = (tup_size b * length xs)%nat.
Proof.
  induction xs as [|x xs IH]; cbn [flat_map length]; [lia|]. rewrite app_length, tup_length, IH. lia.
Qed.
Lemma load_tups b xs : forall m a k d, holds m a (flat_map (tup b) xs) -> (k < length xs)%nat ->
  tup_ok b (nth k xs d) -> load_tup b m (a + tup_size b * k) = nth k xs d.
Proof.
  induction xs as [|x xs IH]; intros m a k d Hh Hk Hok; cbn [length] in Hk; [lia|].
  cbn [flat_map] in Hh. apply holds_app in Hh as [H1 H2]. rewrite tup_length in H2.
  destruct k as [|k]; cbn [nth] in *.
  - rewrite Nat.mul_0_r, Nat.add_0_r. now apply load_tup_run.
  - rewrite <- (IH m (a + tup_size b)%nat k d); auto; [|lia]. f_equal. lia.
Qed.

(* -- copying the edges ------------------------------------------------------------------ *)
Lemma stores_out l : forall U k b, (b < k \/ k + length l <= b)%nat -> stores U k l b = U b.
Proof.
  induction l as [|e l IH]; intros U k b H; cbn [stores length] in *; auto.
  rewrite IH by lia. apply fset_other. lia.
Qed.
Lemma stores_in l : forall U k i d, (i < length l)%nat -> stores U k l (k + i)%nat = nth i l d.
Proof.
  induction l as [|e l IH]; intros U k i d H; cbn [stores length] in *; [lia|].
  destruct i as [|i]; cbn [nth].
  - rewrite Nat.add_0_r, stores_out by lia. apply fset_same.
  - replace (k + S i)%nat with (S k + i)%nat by lia. apply IH. lia.
Qed.

Section Binary.
  Variable weighted : bool.
  Variable g : list (list edge).
  Hypothesis Hg : plain_ok weighted g.
  Notation n := (length g).
  Notation degs := (map (@length edge) g).
  Notation offs := (prefix (map (@length edge) g)).

  Lemma deg_nth j : nth j degs O = length (nth j g []).
  Proof. change O with (length (@nil edge)). apply map_nth. Qed.
  Lemma boffs_S j : (j < n)%nat -> offs (S j) = (offs j + length (nth j g []))%nat.
  Proof. intros H. rewrite prefix_S, deg_nth; auto. now rewrite map_length. Qed.
  Lemma bg_nth j : (j < n)%nat -> N.of_nat (length (nth j g [])) < two32 /\ Forall (tup_ok weighted) (nth j g []).
  Proof. intros H. destruct Hg as [_ H2]. rewrite Forall_forall in H2. apply H2. now apply nth_In. Qed.
  Lemma boffs_bound j : (j <= n)%nat -> N.of_nat (offs j) < two32 * two32.
  Proof.
    intros Hj. assert (N.of_nat (offs j) <= N.of_nat j * (two32 - 1)).
    { induction j as [|j IH]; [reflexivity|]. rewrite boffs_S by lia.
      destruct (@bg_nth j ltac:(lia)) as [Hl _]. specialize (IH ltac:(lia)). unfold two32 in *. lia. }
    destruct Hg as [Hn _]. unfold two32 in *. lia.
  Qed.

  Lemma copy_run s e ord : (s <= e <= n)%nat -> forall U,
    NoDup ord -> (forall j, In j ord -> (s <= j < e)%nat) ->
    exists U', copy ord offs (offs s) (offs e - offs s) g U = Some U' /\
      (forall j k, In j ord -> (k < length (nth j g []))%nat ->
         U' (offs j - offs s + k)%nat = nth k (nth j g []) (0, 0%Z)) /\
      (forall b, (forall j, In j ord -> (b < offs j - offs s \/ offs (S j) - offs s <= b)%nat) -> U' b = U b).
  Proof.
    intros Hse. induction ord as [|j ord IH]; intros U Hnd Hin; cbn [copy].
    { exists U. split; auto. split; [intros j k []|auto]. }
    inversion Hnd as [|? ? Hj0 Hnd']; subst. assert (Hj : (s <= j < e)%nat) by (apply Hin; now left).
    assert (Hj2 : (j < n)%nat) by lia.
    assert (Hin' : forall k, In k ord -> (s <= k < e)%nat) by (intros k Hk; apply Hin; now right).
    pose proof (prefix_mono degs (i := s) (j := j) ltac:(lia)) as M1.
    pose proof (prefix_mono degs (i := S j) (j := e) ltac:(lia)) as M2.
    pose proof (boffs_S Hj2) as ES.
    destruct (Nat.ltb_spec (offs e - offs s) (offs j - offs s + length (nth j g []))) as [Hlt|Hge]; [lia|].
    destruct (IH (stores U (offs j - offs s) (nth j g [])) Hnd' Hin') as (U' & E & Hp & Hf).
    exists U'. split; auto. split.
    - intros k i [<-|Hk] Hi; auto. rewrite Hf; [now apply stores_in|].
      intros q Hq. assert (q <> j) by congruence.
      destruct (Nat.lt_ge_cases q j) as [Hkj|Hkj].
      + pose proof (prefix_mono degs (i := S q) (j := j) ltac:(lia)). lia.
      + pose proof (prefix_mono degs (i := S j) (j := q) ltac:(lia)). lia.
    - intros b Hb. rewrite Hf by (intros k Hk; apply Hb; now right).
      apply stores_out. specialize (Hb j ltac:(now left)). lia.
  Qed.

  Lemma copies_run size ords garbage k : batch_orders size n ords -> forall b,
    let s := Nat.min n (b * size) in
    let e := Nat.min n ((b + k) * size) in
    exists bytes, copies weighted ords garbage offs g b (batches k b size n) = Some bytes /\
      length bytes = (tup_size weighted * (offs e - offs s))%nat /\
      forall m a, holds m a bytes -> forall j i, (s <= j < e)%nat -> (i < length (nth j g []))%nat ->
        load_tup weighted m (a + tup_size weighted * (offs j - offs s + i)) = nth i (nth j g []) (0, 0%Z).
  Proof.
    intros Hord. induction k as [|k IH]; intros b s e; cbn [batches].
    { exists []. split; [reflexivity|]. subst s e. rewrite Nat.add_0_r. split; [cbn; lia|]. intros. lia. }
    cbv zeta. destruct (Nat.leb_spec (Nat.min (b * size + size) n) (b * size)) as [Hle|Hlt].
    - exists []. split; [reflexivity|]. assert (s = e \/ s = n) as Hse.
      { subst s e. destruct (Nat.eq_dec size 0) as [->|]; [left; rewrite !Nat.mul_0_r; lia|right; lia]. }
      assert (Ese : s = e).
      { destruct Hse as [|Hsn]; auto. subst s e. nia. }
      rewrite Ese. split; [cbn; lia|]. intros. lia.
    - cbn [copies]. set (s0 := (b * size)%nat) in *. set (e0 := Nat.min (s0 + size) n) in *.
      assert (Es : s = s0) by (subst s; lia). rewrite Es.
      assert (Hin : forall j, In j (ords b) <-> (s0 <= j < e0)%nat).
      { intros j. assert (E := Hord b). split.
        - intros H. eapply Permutation_in in H; [|exact E]. apply in_seq in H. lia.
        - intros H. apply (Permutation_in _ (Permutation_sym E)). apply in_seq. lia. }
      assert (Hnd : NoDup (ords b)).
      { eapply Permutation_NoDup; [apply Permutation_sym, Hord|apply seq_NoDup]. }
      destruct (@copy_run s0 e0 (ords b) ltac:(lia) (garbage b) Hnd ltac:(intros j; apply Hin)) as (U & E1 & Hp1 & _).
      rewrite E1. destruct (IH (S b)) as (rest & E2 & El & Hr). cbv zeta in El, Hr.
      rewrite E2. exists (flat_map (tup weighted) (map U (seq 0 (offs e0 - offs s0))) ++ rest).
      replace (S b + k)%nat with (b + S k)%nat in El, Hr by lia. fold e in El, Hr.
      assert (Es1 : Nat.min n (S b * size) = e0) by (subst e0 s0; cbn; lia). rewrite Es1 in El, Hr.
      assert (He0 : (e0 <= e)%nat) by (subst e e0 s0; nia).
      pose proof (prefix_mono degs (i := s0) (j := e0) ltac:(lia)) as M1.
      pose proof (prefix_mono degs He0) as M2.
      split; [reflexivity|]. split.
      { rewrite app_length, tups_length, map_length, seq_length, El. nia. }
      intros m a Hh j i Hj Hi. apply holds_app in Hh as [Hh1 Hh2]. rewrite tups_length, map_length, seq_length in Hh2.
      destruct (Nat.lt_ge_cases j e0) as [Hj0|Hj0].
      + assert (Hj2 : (j < n)%nat) by lia.
        pose proof (boffs_S Hj2) as ES.
        pose proof (prefix_mono degs (i := S j) (j := e0) ltac:(lia)) as M3.
        pose proof (prefix_mono degs (i := s0) (j := j) ltac:(lia)) as M4.
        assert (Ek : nth (offs j - offs s0 + i) (map U (seq 0 (offs e0 - offs s0))) (0, 0%Z) = nth i (nth j g []) (0, 0%Z)).
        { rewrite nth_map_seq by lia. apply Hp1; auto. apply Hin. lia. }
        rewrite <- Ek. apply load_tups; auto.
        * rewrite map_length, seq_length. lia.
        * rewrite Ek. destruct (bg_nth Hj2) as [_ Hok]. rewrite Forall_forall in Hok. apply Hok. now apply nth_In.
      + pose proof (prefix_mono degs Hj0) as M3.
        rewrite <- (Hr m _ Hh2 j i ltac:(lia) Hi). f_equal.
        replace (offs j - offs s0)%nat with ((offs e0 - offs s0) + (offs j - offs e0))%nat by lia. lia.
  Qed.

  Lemma binary_run nb ords garbage k : (1 <= nb)%nat -> batch_orders (num_blocks n nb) n ords ->
    N.of_nat k < two32 * two32 ->
    exists bytes, binary_section weighted nb ords garbage k g = Some bytes /\
      length bytes = (24 + (n + 1) * 8 + tup_size weighted * offs n)%nat /\
      forall m a, holds m a bytes ->
        load 8 m a = N.of_nat n /\ load 8 m (a + 8) = N.of_nat k /\
        map (nghs_of weighted m (a + (24 + (n + 1) * 8))) (read_offsets m (a + 24) n) = g.
  Proof.
    intros Hnb Hord Hk. unfold binary_section.
    destruct (@copies_run _ ords garbage nb Hord 0) as (bytes & E & El & Hr). cbv zeta in El, Hr.
    assert (Hc : Nat.min n ((0 + nb) * num_blocks n nb) = n).
    { apply Nat.min_l. cbn. now apply num_blocks_cover. }
    rewrite Hc in El, Hr. rewrite Nat.mul_0_l, Nat.min_0_r in El, Hr.
    change (offs 0) with 0%nat in El, Hr. rewrite Nat.sub_0_r in El.
    rewrite E. eexists. split; [reflexivity|]. split.
    { rewrite !app_length, !les_length, map_length, seq_length, El. cbn [length]. lia. }
    intros m a Hh. apply holds_app in Hh as [H1 Hh]. apply holds_app in Hh as [H2 H3].
    rewrite !les_length, ?map_length, ?seq_length in *. cbn [length] in H2, H3.
    assert (Hn : N.of_nat n < two32 * two32) by (destruct Hg as [Hn _]; unfold two32 in *; lia).
    split. { pose proof (@load8 _ m a 0 H1 ltac:(cbn; lia) Hn) as L. now rewrite Nat.mul_0_r, Nat.add_0_r in L. }
    split. { apply (@load8 _ m a 1 H1 ltac:(cbn; lia) Hk). }
    change (8 * 3)%nat with 24%nat in *.
    assert (Ho : forall i, (i <= n)%nat -> load 8 m (a + 24 + 8 * i) = N.of_nat (offs i)).
    { intros i Hi. pose proof (@load8 _ m (a + 24) i H2) as L.
      rewrite nth_map_seq in L by lia. apply L; [rewrite map_length, seq_length; lia|now apply boffs_bound]. }
    unfold read_offsets. rewrite map_map.
    transitivity (map (fun i => nth i g []) (seq 0 n)); [|apply map_nth_seq].
    apply map_ext_in. intros i Hi. apply in_seq in Hi.
    rewrite !Ho by lia. unfold nghs_of. cbn [v_offset v_degree].
    pose proof (@boffs_S i ltac:(lia)) as ES. destruct (@bg_nth i ltac:(lia)) as [Hl _].
    assert (Ed : N.to_nat (z32 (Z.of_N (N.of_nat (offs (S i))) - Z.of_N (N.of_nat (offs i)))) = length (nth i g [])).
    { rewrite ES. unfold z32. rewrite Z.mod_small; unfold two32 in *; lia. }
    rewrite Ed, Nnat.Nat2N.id.
    transitivity (map (fun k => nth k (nth i g []) (0, 0%Z)) (seq 0 (length (nth i g [])))); [|apply map_nth_seq].
    apply map_ext_in. intros j Hj. apply in_seq in Hj.
    rewrite <- (Hr m _ H3 i j ltac:(lia) ltac:(lia)). f_equal. lia.
  Qed.
  Lemma offs_all : offs n = edge_count g.
  Proof. apply prefix_over. now rewrite map_length. Qed.
  Lemma bcount_bound : N.of_nat (edge_count g) < two32 * two32.
  Proof. rewrite <- offs_all. apply boffs_bound. lia. Qed.
End Binary.

(* -- blocks of another size make no difference for lists that fit in one block ------------ *)
Lemma one_block B n : (0 < n <= B)%nat -> nblocks B n = 1%nat.
Proof. intros H. unfold nblocks. rewrite Nat.div_small; lia. Qed.

Section OneBlock.
  Variables B C : nat.
  Hypothesis HB : (1 <= B)%nat.
  Hypothesis HC : (1 <= C)%nat.
  Variable aw : awty.

  Lemma edges_bytes_same src l : forall deg last t, (deg + length l <= B)%nat -> (deg + length l <= C)%nat ->
    edges_bytes B aw src deg last l t = edges_bytes C aw src deg last l t.
  Proof.
    induction l as [|e l IH]; intros deg last t H1 H2; cbn [edges_bytes length] in *; auto.
    assert (E : edge_bytes B aw src deg last e = edge_bytes C aw src deg last e).
    { unfold edge_bytes. rewrite !Nat.mod_small by lia. reflexivity. }
    rewrite E. destruct (edge_bytes C aw src deg last e); auto. apply IH; lia.
  Qed.
  Lemma vertex_bytes_same src l : (length l <= B)%nat -> (length l <= C)%nat ->
    vertex_bytes B aw src l = vertex_bytes C aw src l.
  Proof.
    intros H1 H2. unfold vertex_bytes. rewrite edges_bytes_same by (cbn; lia).
    destruct (edges_bytes C aw src 0 0 l 0); auto. destruct l as [|e l]; auto. cbv zeta.
    rewrite !one_block; auto; cbn [length] in *; lia.
  Qed.
  Lemma am_compress_same m a src l : (length l <= B)%nat -> (length l <= C)%nat ->
    am_compress B aw m a src l = am_compress C aw m a src l.
  Proof.
    intros H1 H2. unfold am_compress. destruct l as [|e l]; auto. cbv zeta.
    rewrite !one_block; [|cbn [length] in *; lia..].
    cbn [am_compressBlocks]. now rewrite !firstn_all2 by auto.
  Qed.
  Variable g : list (list edge).
  Hypothesis HgB : forall l, In l g -> (length l <= B)%nat.
  Hypothesis HgC : forall l, In l g -> (length l <= C)%nat.

  Lemma all_bytes_same i : forall gs, incl gs g -> all_bytes B aw i gs = all_bytes C aw i gs.
  Proof.
    intros gs. revert i. induction gs as [|l gs IH]; intros i Hin; cbn [all_bytes]; auto.
    rewrite vertex_bytes_same by (try apply HgB; try apply HgC; apply Hin; now left).
    rewrite IH; auto. intros x Hx. apply Hin. now right.
  Qed.
  Lemma nth_len j : (length (nth j g []) <= B)%nat /\ (length (nth j g []) <= C)%nat.
  Proof.
    destruct (Nat.lt_ge_cases j (length g)) as [H|H].
    - split; [apply HgB|apply HgC]; now apply nth_In.
    - rewrite nth_overflow by auto. simpl. lia.
  Qed.
  Lemma fill_same offs s nby : forall ord m, fill B aw ord offs s nby g m = fill C aw ord offs s nby g m.
  Proof.
    induction ord as [|j ord IH]; intros m; cbn [fill]; auto.
    destruct (nth_len j) as [H1 H2]. destruct (nth j g []) as [|e l] eqn:El; auto. rewrite <- El in *. cbv zeta.
    rewrite am_compress_same by auto. destruct (am_compress C aw m (offs j - s) (N.of_nat j) (nth j g [])) as [[m' e']|]; auto.
    rewrite IH. reflexivity.
  Qed.
  Lemma slabs_same ords garbage offs : forall bts b, slabs B aw ords garbage offs g b bts = slabs C aw ords garbage offs g b bts.
  Proof.
    induction bts as [|[s e] bts IH]; intros b; cbn [slabs]; auto. cbv zeta. now rewrite fill_same, IH.
  Qed.
  Lemma convert_same nb ords garbage k : convert_compressed B aw nb ords garbage k g = convert_compressed C aw nb ords garbage k g.
  Proof.
    unfold convert_compressed. rewrite all_bytes_same by (intros x; auto).
    destruct (all_bytes C aw 0 g); auto. cbv zeta. now rewrite slabs_same.
  Qed.
End OneBlock.

Section Convert.
  Variable B : nat.
  Hypothesis HB : (1 <= B)%nat.
  Variable aw : awty.
  Hypothesis Haw : aw = AEmpty \/ aw = AInt.
  Variable g : list (list edge).
  Hypothesis Hg : graph_ok aw g.
  Notation n := (length g).

  (* the file, and what is stored in it for the vertices of the batches *)
  Lemma convert_parts nb ords garbage k : let bs := num_blocks n nb in
    batch_orders bs n ords -> N.of_nat k < two32 * two32 ->
    exists sizes file, convert_compressed B aw nb ords garbage k g = Some file /\
      length sizes = n /\
      (forall j, (j < n)%nat -> nth j sizes O = vsize B aw (N.of_nat j) (nth j g [])) /\
      length file = (24 + (n + 1) * 8 + n * 4 + prefix sizes (Nat.min n (bs * bs)))%nat /\
      forall m, file_at m file ->
        load 8 m 0 = N.of_nat n /\ load 8 m 8 = N.of_nat k /\
        holds m 24 (les 8 (map (prefix sizes) (seq 0 (n + 1)))) /\
        holds m (24 + (n + 1) * 8) (les 4 (map (@length edge) g)) /\
        forall j, (j < Nat.min n (bs * bs))%nat ->
          put B aw g m (fun j => 24 + (n + 1) * 8 + n * 4 + prefix sizes j)%nat j.
  Proof.
    intros bs Hord Hk. unfold convert_compressed.
    destruct (@all_bytes_eq B HB aw Haw g 0 (g_ok1 Hg)) as (sizes & E & El & Hn). rewrite E. cbn [plus] in Hn.
    cbv zeta. fold bs.
    destruct (@slabs_run B HB aw Haw g Hg sizes El Hn bs ords garbage bs Hord 0) as (bytes & Es & Hl & Hr).
    cbv zeta in Hl, Hr. rewrite Nat.mul_0_l, Nat.min_0_r in Hl, Hr. cbn [plus] in Hl, Hr.
    change (prefix sizes 0) with 0%nat in Hl, Hr. rewrite Nat.sub_0_r in Hl.
    rewrite Es. exists sizes. eexists. split; [reflexivity|]. split; auto. split; auto. split.
    { rewrite !app_length, !les_length, !map_length, !seq_length, Hl. cbn [length]. lia. }
    intros m Hm. apply holds_0 in Hm. apply holds_app in Hm as [H1 Hm]. apply holds_app in Hm as [H2 Hm].
    apply holds_app in Hm as [H3 H4]. rewrite !les_length, ?map_length, ?seq_length in *. cbn [length] in *.
    assert (Hnn : N.of_nat n < two32 * two32) by (pose proof (g_small Hg); unfold two32 in *; lia).
    split; [apply (@load8 _ m 0 0 H1 ltac:(cbn; lia) Hnn)|].
    split; [apply (@load8 _ m 0 1 H1 ltac:(cbn; lia) Hk)|].
    cbn [plus Nat.mul] in H2. replace (0 + 8 * 3 + 8 * (n + 1))%nat with (24 + (n + 1) * 8)%nat in * by lia.
    replace (24 + (n + 1) * 8 + 4 * n)%nat with (24 + (n + 1) * 8 + n * 4)%nat in * by lia.
    split; [exact H2|]. split; [exact H3|].
    intros j Hj. specialize (Hr m _ H4 j ltac:(lia)). unfold put in *. intros Hne. specialize (Hr Hne).
    cbv beta in *. now rewrite Nat.sub_0_r in Hr.
  Qed.

  Lemma convert_run nb ords garbage k : let bs := num_blocks n nb in
    (n <= bs * bs)%nat -> batch_orders bs n ords -> N.of_nat k < two32 * two32 ->
    exists file, convert_compressed B aw nb ords garbage k g = Some file /\
      forall m, file_at m file -> is_graph B aw m (read_compressed m) k g.
  Proof.
    intros bs Hbs Hord Hk.
    destruct (@convert_parts nb ords garbage k Hord Hk) as (sizes & file & E & El & Hn & _ & H).
    exists file. split; [exact E|]. intros m Hm. destruct (H m Hm) as (Hn0 & Hm0 & H2 & H3 & Hp).
    unfold is_graph, read_compressed. rewrite Hn0, Hm0, !Nnat.Nat2N.id. cbn [l_n l_m l_vs l_edges].
    split; auto. split; auto.
    apply (@read_vdata_run B HB aw Haw g Hg sizes El Hn); auto.
    intros j Hj. apply Hp. fold bs. lia.
  Qed.
End Convert.
