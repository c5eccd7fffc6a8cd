(* C75: graph files.  B: the block size of the compressed format (readers use 1000). *)
From Verif Require Import Base ListUtil CodecModel CodecSpec CodecProofs CodecList PDModel PDSpec PDProofs
  AMModel AMSpec AMProofs AMWrite GFModel GFSpec GFProofs GFFiles GFBinary.
From Coq Require Import NArith ZArith Lia Sorted Permutation.
Unset Strict Implicit.
Local Open Scope N_scope.

(* the compressor: writing the vertices in any order succeeds, and whatever memory holds the
   file, the reader finds the same graph: n, m, and for every vertex its degree and its
   neighbours with their weights *)
Theorem C75_compressed : forall B aw ord g,
  (1 <= B)%nat -> aw = AEmpty \/ aw = AInt -> graph_ok aw g ->
  Permutation ord (seq 0 (length g)) ->
  exists file, write_compressed B aw ord (edge_count g) g = Some file /\
    forall m, file_at m file -> is_graph B aw m (read_compressed m) (edge_count g) g.
Proof.
  intros B aw ord g HB Haw Hg Hord. unfold write_compressed.
  destruct (@section_run B HB aw Haw g Hg ord Hord) as (total & bytes & E & Ht & Hl & H). rewrite E.
  eexists. split; [reflexivity|]. intros m Hm. apply holds_0 in Hm. apply holds_app in Hm as [H1 H2].
  rewrite les_length in H2. cbn [length] in H2. change (0 + 8 * 3)%nat with 24%nat in H2.
  assert (Hn : N.of_nat (length g) < two32 * two32) by (pose proof (g_small Hg); unfold two32 in *; lia).
  pose proof (@load8 _ m 0 0 H1 ltac:(cbn; lia) Hn) as L0. cbn [nth plus Nat.mul] in L0.
  pose proof (@load8 _ m 0 1 H1 ltac:(cbn; lia) (count_bound HB Hg)) as L1. cbn [nth plus Nat.mul] in L1.
  unfold is_graph, read_compressed. rewrite L0, L1, !Nnat.Nat2N.id. cbn [l_n l_m l_vs l_edges].
  split; [reflexivity|]. split; [reflexivity|]. apply (H m 24%nat H2).
Qed.

Theorem C75_compressed_directed : forall B aw ord1 ord2 out_nghs in_nghs,
  (1 <= B)%nat -> aw = AEmpty \/ aw = AInt -> graph_ok aw out_nghs -> graph_ok aw in_nghs ->
  length in_nghs = length out_nghs ->
  Permutation ord1 (seq 0 (length out_nghs)) -> Permutation ord2 (seq 0 (length in_nghs)) ->
  exists file, write_compressed_directed B aw ord1 ord2 (edge_count out_nghs) out_nghs in_nghs = Some file /\
    forall m, file_at m file ->
      is_graph B aw m (fst (read_compressed_directed m)) (edge_count out_nghs) out_nghs /\
      is_graph B aw m (snd (read_compressed_directed m)) (edge_count out_nghs) in_nghs.
Proof.
  intros B aw ord1 ord2 g1 g2 HB Haw Hg1 Hg2 Hlen Ho1 Ho2. unfold write_compressed_directed.
  destruct (@section_run B HB aw Haw g1 Hg1 ord1 Ho1) as (total & bytes & E & Ht & Hl & H). rewrite E.
  destruct (@section_run B HB aw Haw g2 Hg2 ord2 Ho2) as (total2 & bytes2 & E2 & Ht2 & Hl2 & H'). rewrite E2.
  eexists. split; [reflexivity|]. intros m Hm. apply holds_0 in Hm. apply holds_app in Hm as [H1 H2].
  apply holds_app in H2 as [H2 H3]. apply holds_app in H3 as [H3 H4].
  rewrite !les_length in *. cbn [length] in *. change (0 + 8 * 3)%nat with 24%nat in *.
  assert (Hn : N.of_nat (length g1) < two32 * two32) by (pose proof (g_small Hg1); unfold two32 in *; lia).
  pose proof (@load8 _ m 0 0 H1 ltac:(cbn; lia) Hn) as L0. cbn [nth plus Nat.mul] in L0.
  pose proof (@load8 _ m 0 1 H1 ltac:(cbn; lia) (count_bound HB Hg1)) as L1. cbn [nth plus Nat.mul] in L1.
  pose proof (@load8 _ m 0 2 H1 ltac:(cbn; lia) Ht) as L2. cbn [nth plus Nat.mul] in L2.
  unfold is_graph, read_compressed_directed. rewrite L0, L1, L2, !Nnat.Nat2N.id. cbn [fst snd l_n l_m l_vs l_edges].
  split.
  - split; [reflexivity|]. split; [reflexivity|]. apply (H m 24%nat H2).
  - split; [auto|]. split; [reflexivity|]. specialize (H' m _ H4). rewrite Hlen in H'.
    replace (24 + (length g1 + 1) * 8 + length g1 * 4 + total + 8)%nat with (24 + length bytes + 8 * 1)%nat by lia.
    rewrite Hlen. exact H'.
Qed.

(* the converter (-enc bytepd-amortized -s) with block size bw and its 6 "batches": the same,
   for the numbers of vertices whose batches cover them, if the readers use the same block
   size or every list fits in one block *)
Theorem C75_converter : forall B bw aw ords garbage g,
  (1 <= B)%nat -> (1 <= bw)%nat -> aw = AEmpty \/ aw = AInt -> graph_ok aw g ->
  (length g <= 1 \/ length g = 25 \/ 31 <= length g)%nat ->
  bw = B \/ (forall l, In l g -> (length l <= bw)%nat /\ (length l <= B)%nat) ->
  batch_orders (num_blocks (length g) 6) (length g) ords ->
  exists file, convert_compressed bw aw 6 ords garbage (edge_count g) g = Some file /\
    forall m, file_at m file -> is_graph B aw m (read_compressed m) (edge_count g) g.
Proof.
  intros B bw aw ords garbage g HB Hbw Haw Hg Hn Hbs Hord.
  assert (E : convert_compressed bw aw 6 ords garbage (edge_count g) g
              = convert_compressed B aw 6 ords garbage (edge_count g) g).
  { destruct Hbs as [->|Hbs]; [reflexivity|]. apply convert_same; auto; intros l Hl; now apply Hbs. }
  rewrite E. apply (@convert_run B HB aw Haw g Hg 6 ords garbage); auto; [|apply (count_bound HB Hg)].
  pose proof (@num_blocks_cover (length g) 6 ltac:(lia)) as Hc.
  destruct Hn as [Hn|[Hn|Hn]].
  - destruct (length g) as [|[|?]]; cbn; lia.
  - rewrite Hn. cbn. lia.
  - assert (6 <= num_blocks (length g) 6)%nat by lia. nia.
Qed.

(* for all other numbers of vertices the last vertices are not in the file: the edges of
   vertex i >= num_blocks(n, 6)^2 start at or after its end; and there is such an i *)
Theorem C75_batches_refuted : forall B aw ords garbage g,
  (1 <= B)%nat -> aw = AEmpty \/ aw = AInt -> graph_ok aw g ->
  (2 <= length g <= 24 \/ 26 <= length g <= 30)%nat ->
  batch_orders (num_blocks (length g) 6) (length g) ords ->
  (num_blocks (length g) 6 * num_blocks (length g) 6 <= length g - 1)%nat /\
  exists file, convert_compressed B aw 6 ords garbage (edge_count g) g = Some file /\
    forall m, file_at m file -> forall i v,
      (num_blocks (length g) 6 * num_blocks (length g) 6 <= i)%nat ->
      nth_error (l_vs (read_compressed m)) i = Some v ->
      (length file <= l_edges (read_compressed m) + v_offset v)%nat /\ v_degree v = length (nth i g []).
Proof.
  intros B aw ords garbage g HB Haw Hg Hn Hord. split.
  { generalize dependent (length g). intros n Hn _.
    do 31 (destruct n as [|n]; [cbn in *; lia|]). lia. }
  destruct (@convert_parts B HB aw Haw g Hg 6 ords garbage (edge_count g) Hord (count_bound HB Hg))
    as (sizes & file & E & El & Hs & Hlen & H).
  exists file. split; [exact E|]. intros m Hm i v Hi Hv.
  destruct (H m Hm) as (Hn0 & Hm0 & H2 & H3 & _).
  unfold read_compressed in *. rewrite Hn0, Hm0, !Nnat.Nat2N.id in *. cbn [l_n l_m l_vs l_edges] in *.
  set (bs := num_blocks (length g) 6) in *.
  assert (Hin : (i < length g)%nat).
  { assert (Hne : nth_error (read_vdata m 24 (24 + (length g + 1) * 8) (length g)) i <> None) by (rewrite Hv; discriminate).
    apply nth_error_Some in Hne. unfold read_vdata in Hne. now rewrite map_length, seq_length in Hne. }
  unfold read_vdata in Hv. rewrite nth_error_map, nth_error_seq' in Hv by auto. cbn [option_map] in Hv.
  match type of Hv with Some ?x = _ => assert (Ev : v = x) by congruence end. rewrite Ev. clear Ev Hv.
  cbn [v_offset v_degree].
  assert (Eo : nth i (map (prefix sizes) (seq 0 (length g + 1))) O = prefix sizes i) by (apply nth_map_seq; lia).
  assert (Ed : nth i (map (@length edge) g) O = length (nth i g [])) by (change O with (length (@nil edge)); apply map_nth).
  destruct (@g_nth aw g (g_ok Hg) i Hin) as [_ Hl].
  rewrite (@load8 _ m 24 i H2), (@load4 _ m _ i H3); rewrite ?Eo, ?Ed, ?Nnat.Nat2N.id.
  - split; auto. pose proof (prefix_mono sizes (i := Nat.min (length g) (bs * bs)) (j := i) ltac:(lia)). lia.
  - now rewrite map_length.
  - lia.
  - rewrite map_length, seq_length. lia.
  - apply (@offs_bound B HB aw g (g_ok Hg) (g_small Hg) sizes El Hs). lia.
Qed.

(* the converter's block size (-bs, default 256) is not in the file.  A reader whose block
   size B is larger sees no neighbours at all for the vertices whose degree is in
   (bw, min(bw + 12, B)] *)
Lemma enc_len_ge w src l : ok w l -> (length l <= length (enc w src l))%nat.
Proof.
  assert (R : forall l p, okRest w p l -> (length l <= length (encRest w p l))%nat).
  { clear l. induction l as [|[v x] l IH]; intros p H; cbn [length encRest]; [lia|].
    destruct H as (H1 & _ & _ & H4). rewrite !app_length. specialize (IH v H4).
    assert (length (vbytes (v - p)) <> 0)%nat by (intros E; apply vlen_0 in E; lia). lia. }
  destruct l as [|[v x] l]; intros H; cbn [length enc]; [lia|]. destruct H as (_ & _ & H).
  rewrite !app_length. specialize (R l v H). unfold sbytes. cbn [length]. lia.
Qed.
Theorem C75_block_size_refuted : forall B bw aw ords garbage g,
  (1 <= bw)%nat -> aw = AEmpty \/ aw = AInt -> graph_ok aw g ->
  (length g <= 1 \/ length g = 25 \/ 31 <= length g)%nat ->
  batch_orders (num_blocks (length g) 6) (length g) ords ->
  exists file, convert_compressed bw aw 6 ords garbage (edge_count g) g = Some file /\
    forall m, file_at m file -> forall i v l, nth_error (l_vs (read_compressed m)) i = Some v ->
      nth_error g i = Some l -> (bw < length l <= B)%nat -> (length l <= bw + 12)%nat ->
      v_degree v = length l /\
      forall t, am_decode_weighted B aw t m (l_edges (read_compressed m) + v_offset v) (N.of_nat i) (v_degree v) = Some [].
Proof.
  intros B bw aw ords garbage g HB Haw Hg Hn Hord.
  destruct (@convert_parts bw HB aw Haw g Hg 6 ords garbage (edge_count g) Hord (count_bound HB Hg))
    as (sizes & file & E & El & Hs & Hlen & H).
  exists file. split; [exact E|]. intros m Hm i v l Hv Hl Hd1 Hd2.
  destruct (H m Hm) as (Hn0 & Hm0 & H2 & H3 & Hp).
  unfold read_compressed in *. rewrite Hn0, Hm0, !Nnat.Nat2N.id in *. cbn [l_n l_m l_vs l_edges] in *.
  assert (Hin : (i < length g)%nat) by (apply nth_error_Some; congruence).
  assert (Enl : nth i g [] = l) by (now apply nth_error_nth).
  unfold read_vdata in Hv. rewrite nth_error_map, nth_error_seq' in Hv by auto. cbn [option_map] in Hv.
  match type of Hv with Some ?x = _ => assert (Ev : v = x) by congruence end. rewrite Ev. clear Ev Hv.
  cbn [v_offset v_degree].
  assert (Eo : nth i (map (prefix sizes) (seq 0 (length g + 1))) O = prefix sizes i) by (apply nth_map_seq; lia).
  assert (Ed : nth i (map (@length edge) g) O = length l).
  { rewrite <- Enl. change O with (length (@nil edge)). apply map_nth. }
  destruct (@g_nth aw g (g_ok Hg) i Hin) as [Hok Hsm]. rewrite Enl in Hok, Hsm.
  rewrite (@load8 _ m 24 i H2), (@load4 _ m _ i H3); rewrite ?Eo, ?Ed, ?Nnat.Nat2N.id.
  2: now rewrite map_length.
  2: lia.
  2: rewrite map_length, seq_length; lia.
  2: apply (@offs_bound bw HB aw g (g_ok Hg) (g_small Hg) sizes El Hs); lia.
  split; auto. intros t.
  assert (Hput : (i < Nat.min (length g) (num_blocks (length g) 6 * num_blocks (length g) 6))%nat).
  { pose proof (@num_blocks_cover (length g) 6 ltac:(lia)) as Hc. apply Nat.min_glb_lt; auto.
    destruct Hn as [Hn|[Hn|Hn]].
    - destruct (length g) as [|[|?]]; cbn; lia.
    - rewrite Hn in *. cbn. lia.
    - assert (6 <= num_blocks (length g) 6)%nat by lia. nia. }
  assert (Hne : l <> []) by (destruct l; [simpl in Hd1; lia|discriminate]).
  specialize (Hp i Hput). unfold put in Hp. rewrite Enl in Hp. specialize (Hp Hne). cbv beta in Hp.
  set (a := (24 + (length g + 1) * 8 + length g * 4 + prefix sizes i)%nat) in *.
  unfold am_decode_weighted. destruct (length l) as [|d] eqn:Edl; [lia|]. rewrite <- Edl in *.
  unfold am_nb. rewrite (st_vd Hp).
  assert (H1b : nblocks B (length l) = 1%nat) by (apply one_block; lia).
  rewrite H1b. cbn [am_seq]. unfold am_walk.
  assert (Hnb : (2 <= nblocks bw (length l))%nat).
  { unfold nblocks. assert (1 <= (length l - 1) / bw)%nat; [|lia]. apply Nat.div_le_lower_bound; lia. }
  assert (Hst : am_start m a 1 0 = place bw aw (N.of_nat i) l 1).
  { unfold am_start, am_finger. replace (a + 4 * (1 - 1) + 4)%nat with (a + 4 + 4 * 0)%nat by lia.
    apply (lay_tab (st_lay Hp)). rewrite blocks_length. lia. }
  rewrite Hst.
  assert (Hpl : (bw + 12 <= place bw aw (N.of_nat i) l 1)%nat).
  { cbn [place]. assert (Hb : length (block bw 0 l) = bw) by (unfold block; cbn; rewrite firstn_length; lia).
    pose proof (@enc_len_ge (weights_of aw) (N.of_nat i) (block bw 0 l) (@ok_first _ _ bw Hok)) as Hge. lia. }
  unfold am_end. cbn [Nat.sub Nat.eqb].
  destruct (Nat.ltb_spec (place bw aw (N.of_nat i) l 1) (length l)) as [Hlt|_]; [lia|]. reflexivity.
Qed.

(* the binary format, symmetric: any number of batches, whatever the uninitialized arrays hold *)
Theorem C75_binary : forall weighted nb ords garbage g,
  (1 <= nb)%nat -> plain_ok weighted g -> batch_orders (num_blocks (length g) nb) (length g) ords ->
  exists file, binary_section weighted nb ords garbage (edge_count g) g = Some file /\
    forall m, file_at m file -> is_binary weighted m (read_binary m) (edge_count g) g.
Proof.
  intros weighted nb ords garbage g Hnb Hg Hord.
  destruct (@binary_run weighted g Hg nb ords garbage (edge_count g) Hnb Hord (bcount_bound Hg)) as (file & E & _ & H).
  exists file. split; auto. intros m Hm. destruct (H m 0%nat (holds_0 Hm)) as (L0 & L1 & Hr). cbn [plus] in L0, L1, Hr.
  unfold is_binary, read_binary. rewrite L0, L1, !Nnat.Nat2N.id. auto.
Qed.
(* directed, unweighted *)
Theorem C75_binary_directed : forall nb ords1 ords2 garbage1 garbage2 out_nghs in_nghs,
  (1 <= nb)%nat -> plain_ok false out_nghs -> plain_ok false in_nghs -> length in_nghs = length out_nghs ->
  batch_orders (num_blocks (length out_nghs) nb) (length out_nghs) ords1 ->
  batch_orders (num_blocks (length in_nghs) nb) (length in_nghs) ords2 ->
  exists file, binary_directed false nb ords1 ords2 garbage1 garbage2 (edge_count out_nghs) out_nghs in_nghs = Some file /\
    forall m, file_at m file ->
      is_binary false m (fst (read_binary_directed m)) (edge_count out_nghs) out_nghs /\
      is_binary false m (snd (read_binary_directed m)) (edge_count out_nghs) in_nghs.
Proof.
  intros nb ords1 ords2 gb1 gb2 g1 g2 Hnb Hg1 Hg2 Hlen Ho1 Ho2. unfold binary_directed.
  destruct (@binary_run false g1 Hg1 nb ords1 gb1 (edge_count g1) Hnb Ho1 (bcount_bound Hg1)) as (b1 & E1 & Hl1 & H1).
  destruct (@binary_run false g2 Hg2 nb ords2 gb2 (edge_count g1) Hnb Ho2 (bcount_bound Hg1)) as (b2 & E2 & Hl2 & H2).
  rewrite E1, E2. eexists. split; [reflexivity|]. intros m Hm. apply holds_0 in Hm. apply holds_app in Hm as [M1 M2].
  destruct (H1 m 0%nat M1) as (L0 & L1 & Hr). destruct (H2 m _ M2) as (_ & _ & Hr2). cbn [plus] in *.
  unfold is_binary, read_binary_directed. rewrite L0, L1, !Nnat.Nat2N.id. cbn [fst snd l_n l_m l_vs l_edges].
  split; [auto|]. split; auto. split; auto.
  rewrite offs_all in Hl1. cbn [tup_size] in Hl1. rewrite Hlen in Hr2.
  replace (24 + (length g1 + 1) * 8 + edge_count g1 * 4)%nat with (length b1) by lia. exact Hr2.
Qed.

Print Assumptions C75_compressed.
Print Assumptions C75_compressed_directed.
Print Assumptions C75_converter.
Print Assumptions C75_batches_refuted.
Print Assumptions C75_block_size_refuted.
Print Assumptions C75_binary.
Print Assumptions C75_binary_directed.

(* -- concrete cases --------------------------------------------------------------------- *)
(* a weighted triangle with a pendant vertex, blocks of 2 *)
Definition ex_g : list (list edge) :=
  [[(1, 5%Z); (2, (-7)%Z); (3, 1%Z)]; [(0, 5%Z); (2, 9%Z)]; [(0, (-7)%Z); (1, 9%Z)]; [(0, 1%Z)]].
Lemma ex_g_ok : graph_ok AInt ex_g.
Proof.
  split; [cbv; discriminate|]. unfold ex_g.
  repeat (apply Forall_cons; [split; [split|reflexivity]|]); try apply Forall_nil.
  all: try (repeat (apply Forall_cons; [split; [reflexivity|cbn; lia]|]); apply Forall_nil).
  all: cbn [map fst]; repeat (apply SSorted_cons || apply SSorted_nil || apply Forall_cons || apply Forall_nil); reflexivity.
Qed.
Example C75_triangle : exists file, write_compressed 2 AInt [2%nat; 0%nat; 3%nat; 1%nat] 8 ex_g = Some file /\
  length file = 136%nat /\
  let m := fun i => nth i file 0 in
  let G := read_compressed m in
  l_n G = 4%nat /\ l_m G = 8%nat /\
  map (fun i => let v := nth i (l_vs G) (mkV 0 0) in
                am_iter 2 AInt m (l_edges G + v_offset v) (N.of_nat i) (v_degree v)) [0%nat; 1%nat; 2%nat; 3%nat]
  = map Some ex_g.
Proof. eexists. split; [vm_compute; reflexivity|]. split; [reflexivity|]. vm_compute. auto. Qed.
Example C75_triangle_binary : exists file,
  binary_section true 4 (fun b => [b]) (fun _ _ => (77, 8%Z)) 8 ex_g = Some file /\ length file = 128%nat /\
  let m := fun i => nth i file 0 in
  map (nghs_of true m (l_edges (read_binary m))) (l_vs (read_binary m)) = ex_g.
Proof. eexists. split; [vm_compute; reflexivity|]. split; reflexivity. Qed.

(* a star with 257 leaves meets the hypotheses of C75_block_size_refuted for -bs 256 *)
Definition star : list (list edge) :=
  map (fun i => (N.of_nat i, 0%Z)) (seq 1 257) :: map (fun _ => [(0, 0%Z)]) (seq 1 257).
Example C75_star : graph_ok AEmpty star /\ length star = 258%nat /\ (256 < length (nth 0 star []) <= 268)%nat.
Proof.
  assert (S : forall k s, (s + k <= 300)%nat -> Forall (fun e : edge => fst e < two32 /\ valid_w (weights_of AEmpty) (snd e))
                (map (fun i => (N.of_nat i, 0%Z)) (seq s k)) /\
              StronglySorted N.lt (map fst (map (fun i => (N.of_nat i, 0%Z)) (seq s k)))).
  { induction k as [|k IH]; intros s Hs; cbn [seq map fst]; [split; constructor|].
    destruct (IH (Datatypes.S s) ltac:(lia)) as [I1 I2]. split.
    - constructor; auto. cbn. unfold two32. split; [lia|reflexivity].
    - constructor; auto. rewrite Forall_forall. intros x Hx. rewrite map_map in Hx. cbn [fst] in Hx.
      apply in_map_iff in Hx as (y & <- & Hy). apply in_seq in Hy. lia. }
  assert (L : length star = 258%nat) by (unfold star; cbn [length]; now rewrite map_length, seq_length).
  split; [|split].
  - split; [rewrite L; unfold two32; lia|]. unfold star. apply Forall_cons.
    + split; [split; apply S; lia|]. rewrite map_length, seq_length. unfold two32. lia.
    + rewrite Forall_forall. intros l Hl. apply in_map_iff in Hl as (y & <- & _). split; [split|reflexivity].
      * constructor; [|constructor]. cbn. split; reflexivity.
      * cbn. constructor; constructor.
  - exact L.
  - unfold star. cbn [nth]. rewrite map_length, seq_length. lia.
Qed.
