(* Proofs about edgeMapChunked (part 1). *)
From Verif Require Import Base ListUtil VSModel VSSpec EMModel EMSpec.

Section Chunked.
  Variable X Y : Type.
  Variable B W M : nat.
  Variable bdeg : nat -> nat -> nat.
  Variable ebs : nat -> nat.
  Variable nghs : list (list X).
  Variable ans : nat -> nat -> X -> option Y.
  Hypothesis HB : 1 <= B.
  Notation deg := (deg nghs).
  Notation blocks := (blocks B nghs).
  Notation degrees := (degrees B bdeg nghs).
  Notation total := (outEdgeCount B bdeg nghs).
  Notation ng := (n_groups B bdeg ebs nghs).
  Notation st := (our_start B bdeg ebs nghs).
  Notation en := (our_end B bdeg ebs nghs).
  Notation work := (work B bdeg ebs nghs).

  Lemma lower_bound_mono l v v' : v <= v' -> lower_bound l v <= lower_bound l v'.
  Proof.
    intros H. induction l as [|x l IH]; simpl; auto.
    destruct (Nat.ltb_spec x v), (Nat.ltb_spec x v'); lia.
  Qed.
  Lemma lower_bound_0 l : lower_bound l 0 = 0.
  Proof. destruct l; auto. Qed.
  Lemma lower_bound_len l v : lower_bound l v <= length l.
  Proof. induction l as [|x l IH]; simpl; auto. destruct (x <? v); lia. Qed.
  Lemma scan_length l acc : length (scan_incl acc l) = length l.
  Proof. revert acc; induction l; intros; simpl; auto. Qed.
  Lemma degrees_length : length degrees = length blocks.
  Proof. unfold EMModel.degrees. now rewrite scan_length, map_length. Qed.

  Lemma st_le g : st g <= length blocks.
  Proof. rewrite <- degrees_length. apply lower_bound_len. Qed.
  Lemma st_mono g : st g <= st (S g).
  Proof. apply lower_bound_mono. simpl. lia. Qed.

  Lemma en_st g : S g < ng -> en g = st (S g).
  Proof.
    intros H. unfold our_end. rewrite (proj2 (Nat.ltb_lt _ _)) by lia. unfold our_start. now rewrite Nat.add_1_r.
  Qed.
  Lemma en_last g : ng <= S g -> en g = length blocks.
  Proof. intros H. unfold our_end. now rewrite (proj2 (Nat.ltb_ge _ _)) by lia. Qed.

  Lemma work_seg g : st g <= en g -> en g <= length blocks ->
    work g = firstn (en g - st g) (skipn (st g) blocks).
  Proof.
    intros H1 H2. unfold EMModel.work. destruct (Nat.eqb_spec (st g) (en g)) as [E|E]; simpl.
    - rewrite E, Nat.sub_diag. reflexivity.
    - destruct (Nat.eqb_spec (st g) (length blocks)) as [E'|E']; auto.
      exfalso. lia.
  Qed.

  Lemma tiles_prefix k : k < ng ->
    flat_map work (seq 0 k) = firstn (st k) blocks.
  Proof.
    induction k as [|k IH]; intros Hk.
    - unfold our_start. simpl. now rewrite lower_bound_0.
    - rewrite seq_S, flat_map_app, IH by lia. simpl. rewrite app_nil_r.
      pose proof (st_mono k) as Hm. rewrite work_seg; rewrite ?en_st by lia; auto using st_le.
      pose proof (st_le (S k)).
      rewrite <- (firstn_skipn (st k) (firstn (st (S k)) blocks)).
      rewrite firstn_firstn, Nat.min_l by auto. f_equal.
      rewrite firstn_skipn_comm. f_equal. f_equal. lia.
  Qed.

  Lemma tiles : 0 < ng -> flat_map work (seq 0 ng) = blocks.
  Proof.
    intros H. assert (E : exists k, ng = S k) by (exists (ng - 1); lia). destruct E as [k Ek].
    rewrite Ek, seq_S, flat_map_app, tiles_prefix by lia. simpl. rewrite app_nil_r.
    rewrite work_seg; rewrite ?en_last by lia; auto using st_le.
    rewrite (firstn_all2 (skipn _ _)) by (rewrite skipn_length; lia).
    apply firstn_skipn.
  Qed.

  (* blocks of one vertex *)
  Lemma combine_app' {P Q} (a1 a2 : list P) (b1 b2 : list Q) : length a1 = length b1 ->
    combine (a1 ++ a2) (b1 ++ b2) = combine a1 b1 ++ combine a2 b2.
  Proof.
    revert b1; induction a1; destruct b1; simpl; intros H; try discriminate; auto. f_equal. apply IHa1. lia.
  Qed.

  Lemma block_edges_prefix i k : flat_map (block_edges B nghs) (map (fun j => (i, j)) (seq 0 k))
    = combine (map (fun j => (i, j)) (seq 0 (Nat.min (k * B) (deg i)))) (firstn (k * B) (nth i nghs [])).
  Proof.
    induction k as [|k IH]; [reflexivity|].
    rewrite seq_S, map_app, flat_map_app, IH. cbn [map flat_map Nat.add]. rewrite app_nil_r.
    unfold block_edges. set (L := nth i nghs []). assert (HL : deg i = length L) by reflexivity.
    destruct (Nat.le_gt_cases (deg i) (k * B)) as [H|H].
    - rewrite (Nat.min_r (k * B + B)) by lia. rewrite (proj2 (Nat.sub_0_le _ _) H). simpl combine at 2. rewrite app_nil_r.
      rewrite !Nat.min_r by (simpl; lia). rewrite !firstn_all2 by (simpl; lia). reflexivity.
    - rewrite Nat.min_l by lia. rewrite <- combine_app'.
      + set (q := Nat.min (k * B + B) (deg i) - k * B). rewrite <- map_app.
        replace (seq 0 (k * B) ++ seq (k * B) q) with (seq 0 (Nat.min (S k * B) (deg i))).
        2:{ transitivity (seq 0 (k * B + q)); [|exact (seq_app (k * B) q 0)]. f_equal. unfold q. simpl. lia. }
        f_equal. rewrite <- (firstn_skipn (k * B) (firstn (S k * B) L)).
        rewrite firstn_firstn, Nat.min_l by (simpl; lia). f_equal.
        rewrite firstn_skipn_comm. unfold q.
        destruct (Nat.le_gt_cases (k * B + B) (deg i)).
        * rewrite Nat.min_l by auto. f_equal. f_equal. simpl. lia.
        * rewrite Nat.min_r by lia. rewrite !(firstn_all2 L) by (simpl; lia). reflexivity.
      + rewrite map_length, seq_length, firstn_length. lia.
  Qed.

  Lemma num_blocks_cover d : d <= num_blocks d B * B.
  Proof.
    destruct d; [simpl; lia|]. unfold num_blocks. replace (S d - 1) with d by lia.
    pose proof (Nat.div_mod d B ltac:(lia)). pose proof (Nat.mod_upper_bound d B ltac:(lia)). nia.
  Qed.

  Lemma all_block_edges : flat_map (block_edges B nghs) blocks = all_edges nghs.
  Proof.
    unfold EMModel.blocks, all_edges. generalize (seq 0 (length nghs)). intros L.
    induction L as [|i L IH]; simpl; auto. rewrite flat_map_app, IH. f_equal.
    rewrite block_edges_prefix. pose proof (num_blocks_cover (deg i)).
    rewrite Nat.min_r by auto. rewrite firstn_all2 by (unfold EMModel.deg in *; lia). reflexivity.
  Qed.

  Lemma flat_map_flat_map {P Q R} (f : P -> list Q) (g : Q -> list R) l :
    flat_map g (flat_map f l) = flat_map (fun x => flat_map g (f x)) l.
  Proof. induction l; simpl; auto. now rewrite flat_map_app, IHl. Qed.

  Lemma processed_all : 0 < ng -> processed B bdeg ebs nghs = all_edges nghs.
  Proof. intros H. unfold processed. rewrite <- flat_map_flat_map, tiles by auto. apply all_block_edges. Qed.

  (* capacity *)
  Hypothesis HW : B <= W.
  Hypothesis HM : W <= M.

  Lemma block_edges_len b : length (block_edges B nghs b) <= B.
  Proof. destruct b as [i b]. unfold block_edges. rewrite combine_length, map_length, seq_length. lia. Qed.

  Lemma decode_block_run es : forall cur, length cur + length es <= M ->
    decode_block M ans es cur = Some (cur ++ successes ans es).
  Proof.
    induction es as [|[[i j] x] es IH]; intros cur H; simpl.
    - unfold successes. simpl. now rewrite app_nil_r.
    - simpl in H. unfold successes. simpl. destruct (ans i j x) as [y|].
      + rewrite (proj2 (Nat.ltb_lt _ _)) by lia. rewrite IH by (rewrite app_length; simpl; lia).
        now rewrite <- app_assoc.
      + rewrite IH by lia. reflexivity.
  Qed.
  Lemma successes_len es : length (successes ans es) <= length es.
  Proof.
    induction es as [|[[i j] x] es IH]; simpl; auto. unfold successes in *. simpl. destruct (ans i j x); simpl; lia.
  Qed.

  Lemma run_group_run bs : forall vec, exists vec',
    run_group B W M nghs ans bs vec = Some vec' /\
    concat (rev vec') = concat (rev vec) ++ successes ans (flat_map (block_edges B nghs) bs).
  Proof.
    induction bs as [|b bs IH]; intros vec; simpl.
    - exists vec. split; auto. unfold successes. simpl. now rewrite app_nil_r.
    - assert (Hg : exists cur rest, get_block W M vec = cur :: rest /\ length cur + W <= M /\
                 concat (rev (cur :: rest)) = concat (rev vec)).
      { destruct vec as [|cur rest]; simpl.
        - exists [], []. simpl. repeat split; auto; lia.
        - destruct (Nat.ltb_spec M (length cur + W)).
          + exists [], (cur :: rest). repeat split; [simpl; lia|]. simpl. rewrite !concat_app. simpl. now rewrite !app_nil_r.
          + exists cur, rest. repeat split; auto. }
      destruct Hg as (cur & rest & -> & Hc & E). pose proof (block_edges_len b).
      rewrite decode_block_run by lia.
      destruct (IH ((cur ++ successes ans (block_edges B nghs b)) :: rest)) as (vec' & -> & E').
      exists vec'. split; auto. rewrite E'. simpl in *. unfold successes. rewrite flat_map_app.
      rewrite <- E. rewrite !concat_app. simpl. rewrite !app_nil_r, <- !app_assoc. reflexivity.
  Qed.

  Lemma run_groups_run gs : exists vecs, run_groups B W M bdeg ebs nghs ans gs = Some vecs /\
    concat vecs = successes ans (flat_map (fun g => flat_map (block_edges B nghs) (work g)) gs).
  Proof.
    induction gs as [|g gs IH]; simpl.
    - exists []. auto.
    - destruct (run_group_run (work g) []) as (vec & -> & E). destruct IH as (vecs & -> & E').
      eexists. split; [reflexivity|]. rewrite concat_app, E, E'. simpl. unfold successes. now rewrite flat_map_app.
  Qed.

  Lemma chunked_run : edgeMapChunked B W M bdeg ebs nghs ans
    = Some (successes ans (processed B bdeg ebs nghs)).
  Proof.
    unfold edgeMapChunked. destruct (run_groups_run (seq 0 ng)) as (vecs & -> & E). simpl. now rewrite E.
  Qed.

  (* the reported total *)
  Lemma scan_last l acc : nth (length l - 1) (scan_incl acc l) 0 = match l with [] => 0 | _ => acc + list_sum l end.
  Proof.
    revert acc; induction l as [|x l IH]; intros acc; [reflexivity|].
    destruct l as [|y l]; [simpl; lia|]. specialize (IH (acc + x)).
    replace (length (x :: y :: l) - 1) with (S (length (y :: l) - 1)) by (simpl; lia).
    change (scan_incl acc (x :: y :: l)) with ((acc + x) :: scan_incl (acc + x) (y :: l)). cbn [nth].
    rewrite IH. simpl. lia.
  Qed.
  Lemma total_sum : total = list_sum (map (fun b => bdeg (deg (fst b)) (snd b)) blocks).
  Proof.
    unfold outEdgeCount, EMModel.degrees.
    rewrite <- (map_length (fun b => bdeg (deg (fst b)) (snd b)) blocks) at 1. rewrite scan_last.
    destruct (map _ blocks); auto.
  Qed.
  Lemma ng_pos : 0 < total -> 0 < ng.
  Proof. intros H. unfold n_groups, num_blocks. destruct total; lia. Qed.
  Lemma ng_zero : total = 0 -> ng = 0.
  Proof. intros H. unfold n_groups, num_blocks. now rewrite H. Qed.
End Chunked.
