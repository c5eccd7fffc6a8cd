(* The graph files: from the file to the graph that is read. *)
From Verif Require Import Base ListUtil CodecModel CodecSpec CodecProofs CodecList PDModel PDSpec PDProofs
  AMModel AMSpec AMProofs AMWrite AMIter GFModel GFSpec GFProofs.
From Coq Require Import NArith ZArith Lia Sorted Permutation.
Unset Strict Implicit.
Local Open Scope N_scope.

Lemma pow8 : 256 ^ N.of_nat 8 = two32 * two32.
Proof. reflexivity. Qed.
Lemma pow4 : 256 ^ N.of_nat 4 = two32.
Proof. reflexivity. Qed.
Lemma load8 xs m a i : holds m a (les 8 xs) -> (i < length xs)%nat -> N.of_nat (nth i xs O) < two32 * two32 ->
  load 8 m (a + 8 * i) = N.of_nat (nth i xs O).
Proof. intros H Hi Hb. rewrite (load_les H Hi), pow8. now apply N.mod_small. Qed.
Lemma load4 xs m a i : holds m a (les 4 xs) -> (i < length xs)%nat -> N.of_nat (nth i xs O) < two32 ->
  load 4 m (a + 4 * i) = N.of_nat (nth i xs O).
Proof. intros H Hi Hb. rewrite (load_les H Hi), pow4. now apply N.mod_small. Qed.

Lemma num_blocks_cover n k : (1 <= k)%nat -> (n <= k * num_blocks n k)%nat.
Proof.
  intros Hk. unfold num_blocks. destruct n as [|n']; [lia|].
  pose proof (Nat.div_mod n' k ltac:(lia)). pose proof (Nat.mod_upper_bound n' k ltac:(lia)). nia.
Qed.

Lemma nth_error_seq' n i : (i < n)%nat -> nth_error (seq 0 n) i = Some i.
Proof. intros H. rewrite nth_error_nth' with (d := O) by (now rewrite seq_length). now rewrite seq_nth. Qed.

Section Files.
  Variable B : nat.
  Hypothesis HB : (1 <= B)%nat.
  Variable aw : awty.
  Hypothesis Haw : aw = AEmpty \/ aw = AInt.
  Notation w := (weights_of aw).
  Variable g : list (list edge).
  Hypothesis Hg : graph_ok aw g.

  Lemma g_small : N.of_nat (length g) <= two32.
  Proof. apply Hg. Qed.
  Lemma g_ok : Forall (fun l => ok w l /\ 18 * N.of_nat (length l) < two32) g.
  Proof.
    destruct Hg as [_ H]. eapply Forall_impl; [|exact H]. intros l [H1 H2]. split; auto. now apply ok_adj.
  Qed.
  Lemma g_ok1 : Forall (ok w) g.
  Proof. eapply Forall_impl; [|exact g_ok]. intros l [H1 H2]; auto. Qed.
  Lemma count_bound : N.of_nat (edge_count g) < two32 * two32.
  Proof.
    assert (H : N.of_nat (edge_count g) <= N.of_nat (length g) * (two32 - 1)).
    { unfold edge_count. pose proof g_ok as H. clear - H.
      induction H as [|l g' [H1 H2] H IH]; [reflexivity|]. cbn [map length list_sum fold_right].
      unfold list_sum in *. cbn [fold_right]. unfold two32 in *. lia. }
    pose proof g_small. unfold two32 in *. lia.
  Qed.

  Lemma put_reads m edges off j : (j < length g)%nat -> put B aw g m (fun _ => (edges + off)%nat) j ->
    reads_as B aw m edges (mkV off (length (nth j g []))) (N.of_nat j) (nth j g []).
  Proof.
    intros Hj Hp. unfold reads_as. cbn [v_offset v_degree]. split; [reflexivity|].
    assert (Hs : N.of_nat j < two32) by (pose proof g_small; lia).
    unfold put in Hp. set (l := nth j g []) in *.
    assert (Hc : l = [] \/ l <> []) by (destruct l; [left|right]; congruence).
    destruct Hc as [E|E].
    - rewrite E. cbn. assert (Hd : ceil_div 0 B = O) by (unfold ceil_div; apply Nat.div_small; lia).
      rewrite Hd. repeat split; auto; intros; lia.
    - specialize (Hp E). cbv beta in Hp.
      assert (HL : (0 < length l)%nat) by (destruct l; [congruence|simpl; lia]).
      pose proof (blocks_concat HB l) as Ec. pose proof (blocks_length B l) as Hbl.
      assert (Hne : concat (blocks B l) <> []) by (rewrite Ec; auto).
      pose proof (nblocks_ceil HB HL) as Hnc.
      assert (Hnb : (1 <= nblocks B (length l))%nat) by (unfold nblocks; lia).
      assert (Hcalls : forall t i, (i < nblocks B (length l))%nat ->
                calls_of t (blocks B l) i = upto t (i * B) (block B i l)).
      { intros t i Hi. unfold calls_of. rewrite (@blocks_position B HB _ Hs l i) by auto. now rewrite blocks_nth. }
      split; [|split; [|split; [|split]]].
      + pose proof (@am_iter_run B HB aw Haw _ Hs m _ _ _ _ Hp) as R. now rewrite Ec in R.
      + intros t. pose proof (@decode_weighted_run B HB aw Haw _ Hs t m _ _ _ _ Hp Hne) as R. now rewrite Ec in R.
      + pose proof (@decode_unweighted_run B HB aw Haw _ Hs (fun _ _ _ => true) m _ _ _ _ Hp Hne) as R. rewrite Ec in R.
        rewrite R. cbn [option_map]. f_equal.
        assert (At : forall k x, all_true (fun _ _ _ => true) k x = true).
        { intros k x. revert k. induction x as [|[v y] x IH]; intros k; cbn; auto. }
        rewrite At. rewrite Hbl.
        assert (Up : forall xs ys k, upto (fun _ _ _ => true) k (xs ++ ys)
                  = upto (fun _ _ _ => true) k xs ++ upto (fun _ _ _ => true) (k + length xs) ys).
        { induction xs as [|[v y] xs IH]; intros ys k; [cbn; now rewrite Nat.add_0_r|].
          cbn [upto length app]. f_equal. rewrite IH. f_equal. f_equal. lia. }
        assert (Hcc : forall k, (k <= nblocks B (length l))%nat ->
           concat (map (calls_of (fun _ _ _ => true) (blocks B l)) (seq 0 k))
           = upto (fun _ _ _ => true) 0 (firstn (k * B) l)).
        { induction k as [|k IH]; intros Hk; [reflexivity|].
          rewrite seq_S, map_app, concat_app, IH by lia. cbn [map concat plus]. rewrite app_nil_r.
          rewrite Hcalls by lia.
          assert (Ef : firstn (S k * B) l = firstn (k * B) l ++ block B k l).
          { unfold block. replace (S k * B)%nat with (k * B + B)%nat by (cbn; lia).
            rewrite <- (firstn_skipn (k * B) l) at 1. rewrite firstn_app.
            pose proof (@nblocks_lt B HB (length l) k HL ltac:(lia)) as Hlt.
            rewrite firstn_length, Nat.min_l by lia. replace (k * B + B - k * B)%nat with B by lia.
            f_equal. rewrite firstn_all2; auto. rewrite firstn_length. lia. }
          rewrite Ef, Up. f_equal. f_equal.
          pose proof (@nblocks_lt B HB (length l) k HL ltac:(lia)). rewrite firstn_length. lia. }
        rewrite Hcc by lia. f_equal. apply firstn_all2. apply nblocks_cover, HB.
      + pose proof (@block_degree_run B HB aw _ Hs m _ _ _ _ 0%nat Hp Hne ltac:(lia)) as [R _]. rewrite Ec in R.
        rewrite R, Hbl. exact Hnc.
      + intros i t Hi. rewrite <- Hnc in Hi.
        pose proof (@decode_block_run B HB aw Haw _ Hs t m _ _ _ _ i Hp Hne ltac:(lia)) as R. rewrite Ec in R.
        rewrite R. now rewrite Hcalls.
  Qed.

  (* -- one direction of a compressed file --------------------------------------------- *)
  Section One.
    Variable sizes : list nat.
    Hypothesis Hsizes : length sizes = length g.
    Hypothesis Hsz : forall j, (j < length g)%nat -> nth j sizes O = vsize B aw (N.of_nat j) (nth j g []).
    Notation offs := (prefix sizes).
    Notation n := (length g).

    Lemma read_vdata_run m ao ad ae : holds m ao (les 8 (map offs (seq 0 (n + 1)))) ->
      holds m ad (les 4 (map (@length edge) g)) ->
      (forall j, (j < n)%nat -> put B aw g m (fun j => ae + offs j)%nat j) ->
      length (read_vdata m ao ad n) = n /\
      forall i v, nth_error (read_vdata m ao ad n) i = Some v -> reads_as B aw m ae v (N.of_nat i) (nth i g []).
    Proof.
      intros Ho Hd Hp. unfold read_vdata. split; [now rewrite map_length, seq_length|].
      intros i v Hi.
      assert (Hin : (i < n)%nat).
      { assert (H : nth_error (read_vdata m ao ad n) i <> None) by (unfold read_vdata; congruence).
        apply nth_error_Some in H. unfold read_vdata in H. now rewrite map_length, seq_length in H. }
      rewrite nth_error_map, nth_error_seq' in Hi by auto. cbn [option_map] in Hi.
      match type of Hi with Some ?x = _ => assert (Ev : v = x) by congruence end. rewrite Ev. clear Ev Hi.
      assert (Eo : nth i (map offs (seq 0 (n + 1))) O = offs i) by (apply nth_map_seq; lia).
      rewrite (@load8 _ m ao i Ho); rewrite ?Eo.
      2: rewrite map_length, seq_length; lia.
      2: apply (@offs_bound B HB aw g g_ok g_small sizes Hsizes Hsz); lia.
      assert (Ed : nth i (map (@length edge) g) O = length (nth i g [])) by (change O with (length (@nil edge)); apply map_nth).
      destruct (@g_nth aw g g_ok i Hin) as [_ Hl].
      rewrite (@load4 _ m ad i Hd); rewrite ?Ed.
      2: now rewrite map_length.
      2: lia.
      rewrite !Nnat.Nat2N.id. apply put_reads; auto.
      exact (Hp i Hin).
    Qed.

    Lemma slabs_run size ords garbage k : batch_orders size n ords -> forall b,
      let s := Nat.min n (b * size) in
      let e := Nat.min n ((b + k) * size) in
      exists bytes, slabs B aw ords garbage offs g b (batches k b size n) = Some bytes /\
        length bytes = (offs e - offs s)%nat /\
        forall m a, holds m a bytes -> forall j, (s <= j < e)%nat ->
          put B aw g m (fun j => a + (offs j - offs s))%nat j.
    Proof.
      intros Hord. induction k as [|k IH]; intros b s e; cbn [batches].
      { exists []. split; [reflexivity|]. subst s e. rewrite Nat.add_0_r. split; [cbn; lia|]. intros. lia. }
      cbv zeta. destruct (Nat.leb_spec (Nat.min (b * size + size) n) (b * size)) as [Hle|Hlt].
      - exists []. split; [reflexivity|]. assert (s = e \/ s = n) as Hse.
        { subst s e. destruct (Nat.eq_dec size 0) as [->|]; [left; rewrite !Nat.mul_0_r; lia|right; lia]. }
        assert (Ese : s = e).
        { destruct Hse as [|Hsn]; auto. subst s e. nia. }
        rewrite Ese. split; [cbn; lia|]. intros. lia.
      - cbn [slabs]. set (s0 := (b * size)%nat) in *. set (e0 := Nat.min (s0 + size) n) in *.
        assert (Es : s = s0) by (subst s; lia). rewrite Es.
        assert (Hin : forall j, In j (ords b) <-> (s0 <= j < e0)%nat).
        { intros j. assert (E := Hord b). split.
          - intros H. eapply Permutation_in in H; [|exact E]. apply in_seq in H. lia.
          - intros H. apply (Permutation_in _ (Permutation_sym E)). apply in_seq. lia. }
        assert (Hnd : NoDup (ords b)).
        { eapply Permutation_NoDup; [apply Permutation_sym, Hord|apply seq_NoDup]. }
        destruct (@fill_run B HB aw Haw g g_ok g_small sizes Hsizes Hsz s0 e0 (ords b)
                    ltac:(lia) (garbage b) Hnd ltac:(intros j; apply Hin)) as (m1 & E1 & Hp1 & _).
        rewrite E1. destruct (IH (S b)) as (rest & E2 & El & Hr). cbv zeta in El, Hr.
        rewrite E2. exists (map m1 (seq 0 (offs e0 - offs s0)) ++ rest).
        replace (S b + k)%nat with (b + S k)%nat in El, Hr by lia. fold e in El, Hr.
        assert (Es1 : Nat.min n (S b * size) = e0) by (subst e0 s0; cbn; lia). rewrite Es1 in El, Hr.
        assert (He0 : (e0 <= e)%nat) by (subst e e0 s0; nia).
        pose proof (prefix_mono sizes (i := s0) (j := e0) ltac:(lia)) as M1.
        pose proof (prefix_mono sizes He0) as M2.
        split; [reflexivity|]. split.
        { rewrite app_length, map_length, seq_length, El. lia. }
        intros m a Hh j Hj. apply holds_app in Hh as [Hh1 Hh2]. rewrite map_length, seq_length in Hh2.
        destruct (Nat.lt_ge_cases j e0) as [Hj0|Hj0].
        + apply (@put_move B HB aw g g_small sizes Hsizes Hsz m1 m s0 e0 a j ltac:(lia) ltac:(lia)).
          * apply Hp1. apply Hin. lia.
          * intros x Hx. apply (holds_map Hh1). lia.
        + specialize (Hr m _ Hh2 j ltac:(lia)). unfold put in *. intros Hne. specialize (Hr Hne). cbv beta in *.
          pose proof (prefix_mono sizes Hj0) as M3.
          replace (a + (offs j - offs s0))%nat with (a + (offs e0 - offs s0) + (offs j - offs e0))%nat by lia.
          exact Hr.
    Qed.
  End One.

  Lemma section_run ord : Permutation ord (seq 0 (length g)) ->
    exists total bytes, section_bytes B aw ord g = Some (total, bytes) /\ N.of_nat total < two32 * two32 /\
      length bytes = ((length g + 1) * 8 + length g * 4 + total)%nat /\
      forall m a, holds m a bytes ->
        let vs := read_vdata m a (a + (length g + 1) * 8) (length g) in
        length vs = length g /\
        forall i v, nth_error vs i = Some v ->
          reads_as B aw m (a + (length g + 1) * 8 + length g * 4) v (N.of_nat i) (nth i g []).
  Proof.
    intros Hord. unfold section_bytes.
    destruct (@all_bytes_eq B HB aw Haw g 0 g_ok1) as (sizes & E & El & Hn). rewrite E. cbn [plus] in Hn.
    assert (Hnd : NoDup ord) by (eapply Permutation_NoDup; [apply Permutation_sym, Hord|apply seq_NoDup]).
    assert (Hin : forall j, In j ord <-> (0 <= j < length g)%nat).
    { intros j. split.
      - intros H. eapply Permutation_in in H; [|exact Hord]. apply in_seq in H. lia.
      - intros H. apply (Permutation_in _ (Permutation_sym Hord)). apply in_seq. lia. }
    destruct (@fill_run B HB aw Haw g g_ok g_small sizes El Hn 0 (length g) ord
                ltac:(lia) (fun _ => 0) Hnd ltac:(intros j; apply Hin)) as (m1 & E1 & Hp1 & _).
    change (prefix sizes 0) with 0%nat in E1. rewrite Nat.sub_0_r in E1. rewrite E1.
    eexists _, _. split; [reflexivity|].
    split; [apply (@offs_bound B HB aw g g_ok g_small sizes El Hn); lia|].
    split. { rewrite !app_length, !les_length, !map_length, !seq_length. lia. }
    intros m a Hh. apply holds_app in Hh as [Ho Hh]. apply holds_app in Hh as [Hd He].
    rewrite !les_length, !map_length, ?seq_length in *.
    replace (a + 8 * (length g + 1))%nat with (a + (length g + 1) * 8)%nat in * by lia.
    apply (@read_vdata_run sizes El Hn); auto.
    intros j Hj.
    replace (a + (length g + 1) * 8 + 4 * length g)%nat with (a + (length g + 1) * 8 + length g * 4)%nat in * by lia.
    assert (P := @put_move B HB aw g g_small sizes El Hn m1 m 0 (length g)
                   (a + (length g + 1) * 8 + length g * 4) j ltac:(lia) ltac:(lia)).
    change (prefix sizes 0) with 0%nat in P. unfold put in *. intros Hne. cbv beta in *.
    rewrite Nat.sub_0_r in P. apply P; auto.
    - specialize (Hp1 j ltac:(apply Hin; lia) Hne). cbv beta in Hp1. change (prefix sizes 0) with 0%nat in Hp1.
      now rewrite Nat.sub_0_r in Hp1.
    - intros b Hb. apply (holds_map He). lia.
  Qed.
End Files.
