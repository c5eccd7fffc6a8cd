(* Consequences for the concrete operations. *)
From Verif Require Import Base AtomicsModel AtomicsSpec AtomicsProofs.
From Coq Require Import ZArith.
Local Open Scope Z_scope.

Lemma nth_error_map_nth {A B} (f : A -> B) l i o d :
  nth_error (map f l) i = Some o -> o = f (nth i l d).
Proof.
  rewrite nth_error_map. destruct (nth_error l i) eqn:E; simpl; [|discriminate].
  intros [= <-]. now rewrite (nth_error_nth _ _ d E).
Qed.

Section Inv.
  Context {R : Type} (ops : list (rmw Z R)).

  Definition guarded (s : cfg Z R) : Prop :=
    forall j c o, nth_error (snd s) j = Some (Cas c) -> nth_error ops j = Some o -> guard o c = true.

  Lemma guarded_start v : guarded (start ops v).
  Proof. intros j c o H. simpl in H. rewrite nth_error_map in H. destruct (nth_error ops j); discriminate. Qed.

  Lemma guarded_step s i : guarded s -> guarded (sys_step Z.eq_dec ops s i).
  Proof.
    intros Hg. unfold sys_step.
    destruct (nth_error ops i) as [o|] eqn:Eo; auto.
    destruct (nth_error (snd s) i) as [p|] eqn:Ep; auto.
    destruct s as [m l]; simpl in *.
    assert (Hi : (i < length l)%nat) by (apply nth_error_Some; congruence).
    destruct (tstep Z.eq_dec o m p) as [m' p'] eqn:Et.
    intros j c o' Hj Ho'. simpl in Hj. destruct (Nat.eq_dec i j) as [->|Hne].
    - rewrite nth_error_lset_same in Hj by auto. injection Hj as ->.
      rewrite Eo in Ho'; injection Ho' as <-.
      destruct p as [|c0|]; simpl in Et; try discriminate.
      + destruct (guard o m) eqn:E; congruence.
      + destruct (Z.eq_dec m c0); discriminate.
    - rewrite nth_error_lset_other in Hj by auto. eapply Hg; eauto.
  Qed.

  (* invariants of the stored value *)
  Variable I : Z -> Prop.
  Hypothesis HI : forall o v, In o ops -> guard o v = true -> I v -> I (newv o v).

  Lemma inv_step s i : guarded s -> I (fst s) -> I (fst (sys_step Z.eq_dec ops s i)).
  Proof.
    intros Hg. unfold sys_step.
    destruct (nth_error ops i) as [o|] eqn:Eo; auto.
    destruct (nth_error (snd s) i) as [p|] eqn:Ep; auto.
    destruct p as [|c|r]; simpl; auto.
    - destruct (guard o (fst s)); simpl; auto.
    - destruct (Z.eq_dec (fst s) c) as [->|]; simpl; auto.
      apply HI. eapply nth_error_In; eauto. eapply Hg; eauto.
  Qed.

  Lemma inv_exec sched : forall s, guarded s -> I (fst s) -> I (fst (exec Z.eq_dec ops sched s)).
  Proof.
    induction sched as [|a sched IH]; intros s Hg Hi; simpl; auto.
    apply IH. now apply guarded_step. now apply inv_step.
  Qed.

  Lemma guarded_exec sched : forall s, guarded s -> guarded (exec Z.eq_dec ops sched s).
  Proof.
    induction sched as [|a sched IH]; intros s Hg; simpl; auto. apply IH. now apply guarded_step.
  Qed.
End Inv.

Lemma exec_app {T R} eqT (ops : list (rmw T R)) s1 s2 s :
  exec eqT ops (s1 ++ s2) s = exec eqT ops s2 (exec eqT ops s1 s).
Proof. unfold exec. apply fold_left_app. Qed.

(* --- write_min --- *)
Lemma call_write_min bs i o : nth_error (map (write_min Z.ltb) bs) i = Some o ->
  forall v, seq_write_min v (nth i bs 0) = op_seq o v.
Proof. intros H v. apply nth_error_map_nth with (d := 0) in H. subst. reflexivity. Qed.

Lemma call_write_max bs i o : nth_error (map (write_max Z.ltb) bs) i = Some o ->
  forall v, seq_write_max v (nth i bs 0) = op_seq o v.
Proof. intros H v. apply nth_error_map_nth with (d := 0) in H. subst. reflexivity. Qed.

Lemma call_fetch_add w bs i o : nth_error (map (fetch_and_add w) bs) i = Some o ->
  forall v, seq_fetch_add w v (nth i bs 0) = op_seq o v.
Proof. intros H v. apply nth_error_map_nth with (d := 0) in H. subst. reflexivity. Qed.

Lemma call_write_add w bs i o : nth_error (map (write_add w) bs) i = Some o ->
  forall v, seq_write_add w v (nth i bs 0) = op_seq o v.
Proof. intros H v. apply nth_error_map_nth with (d := 0) in H. subst. reflexivity. Qed.

Lemma call_threshold w mx bs i o : nth_error (map (fun b => fetch_and_add_threshold w b mx) bs) i = Some o ->
  forall v, seq_fetch_add_threshold w v (nth i bs 0) mx = op_seq o v.
Proof. intros H v. apply nth_error_map_nth with (d := 0) in H. subst. reflexivity. Qed.

Lemma replay_min_fold bs order : forall v,
  fst (replay (fun i v => seq_write_min v (nth i bs 0)) v order) =
  fold_right Z.min v (map (fun i => nth i bs 0) order).
Proof.
  assert (Hf : forall l v b, fold_right Z.min (Z.min v b) l = Z.min b (fold_right Z.min v l)).
  { induction l as [|a l IH]; intros v b; simpl; [lia|]. rewrite IH. lia. }
  induction order as [|i order IH]; intros v; simpl; auto.
  destruct (seq_write_min v (nth i bs 0)) as [v1 r] eqn:E.
  specialize (IH v1). destruct (replay _ v1 order); simpl in *. rewrite IH.
  unfold seq_write_min in E. rewrite <- Hf. f_equal.
  destruct (Z.ltb_spec (nth i bs 0) v); injection E as <- <-; lia.
Qed.

Lemma replay_max_fold bs order : forall v,
  fst (replay (fun i v => seq_write_max v (nth i bs 0)) v order) =
  fold_right Z.max v (map (fun i => nth i bs 0) order).
Proof.
  assert (Hf : forall l v b, fold_right Z.max (Z.max v b) l = Z.max b (fold_right Z.max v l)).
  { induction l as [|a l IH]; intros v b; simpl; [lia|]. rewrite IH. lia. }
  induction order as [|i order IH]; intros v; simpl; auto.
  destruct (seq_write_max v (nth i bs 0)) as [v1 r] eqn:E.
  specialize (IH v1). destruct (replay _ v1 order); simpl in *. rewrite IH.
  unfold seq_write_max in E. rewrite <- Hf. f_equal.
  destruct (Z.ltb_spec v (nth i bs 0)); injection E as <- <-; lia.
Qed.

Lemma map_nth_seq {A} (l : list A) d : map (fun i => nth i l d) (seq 0 (length l)) = l.
Proof.
  apply nth_ext with (d := d) (d' := d).
  - now rewrite map_length, seq_length.
  - intros n Hn. rewrite map_length, seq_length in Hn.
    rewrite nth_indep with (d' := (fun i => nth i l d) 0%nat) by now rewrite map_length, seq_length.
    rewrite map_nth with (f := fun i => nth i l d). now rewrite seq_nth.
Qed.

Lemma fold_min_perm v l1 l2 : Permutation l1 l2 -> fold_right Z.min v l1 = fold_right Z.min v l2.
Proof. induction 1; simpl; auto; lia. Qed.
Lemma fold_max_perm v l1 l2 : Permutation l1 l2 -> fold_right Z.max v l1 = fold_right Z.max v l2.
Proof. induction 1; simpl; auto; lia. Qed.
Lemma fold_add_perm v l1 l2 : Permutation l1 l2 -> fold_right Z.add v l1 = fold_right Z.add v l2.
Proof. induction 1; simpl; auto; lia. Qed.

Lemma write_min_final init bs sched :
  let s := exec Z.eq_dec (map (write_min Z.ltb) bs) sched (start (map (write_min Z.ltb) bs) init) in
  (forall i, (i < length bs)%nat -> result s i <> None) ->
  fst s = fold_right Z.min init bs.
Proof.
  intros s H.
  destruct (@all_done_order _ _ Z.eq_dec (map (write_min Z.ltb) bs)
              (fun i v => seq_write_min v (nth i bs 0)) (@call_write_min bs) init sched) as (order & Hp & Hv & _).
  { rewrite map_length. exact H. }
  fold s in Hv. rewrite <- Hv, replay_min_fold.
  rewrite map_length in Hp.
  rewrite (fold_min_perm init (l2 := map (fun i => nth i bs 0) (seq 0 (length bs)))).
  - now rewrite map_nth_seq.
  - now apply Permutation_map.
Qed.

Lemma write_max_final init bs sched :
  let s := exec Z.eq_dec (map (write_max Z.ltb) bs) sched (start (map (write_max Z.ltb) bs) init) in
  (forall i, (i < length bs)%nat -> result s i <> None) ->
  fst s = fold_right Z.max init bs.
Proof.
  intros s H.
  destruct (@all_done_order _ _ Z.eq_dec (map (write_max Z.ltb) bs)
              (fun i v => seq_write_max v (nth i bs 0)) (@call_write_max bs) init sched) as (order & Hp & Hv & _).
  { rewrite map_length. exact H. }
  fold s in Hv. rewrite <- Hv, replay_max_fold.
  rewrite map_length in Hp.
  rewrite (fold_max_perm init (l2 := map (fun i => nth i bs 0) (seq 0 (length bs)))).
  - now rewrite map_nth_seq.
  - now apply Permutation_map.
Qed.

Lemma write_min_monotone init bs sched1 sched2 :
  let ops := map (write_min Z.ltb) bs in
  fst (exec Z.eq_dec ops (sched1 ++ sched2) (start ops init)) <= fst (exec Z.eq_dec ops sched1 (start ops init)).
Proof.
  intros ops. rewrite exec_app.
  apply (inv_exec (ops := ops) (fun v => v <= fst (exec Z.eq_dec ops sched1 (start ops init)))).
  - intros o v Hin Hg Hv. apply in_map_iff in Hin. destruct Hin as [b [<- _]]. simpl in *. lia.
  - apply guarded_exec, guarded_start.
  - lia.
Qed.

Lemma write_max_monotone init bs sched1 sched2 :
  let ops := map (write_max Z.ltb) bs in
  fst (exec Z.eq_dec ops sched1 (start ops init)) <= fst (exec Z.eq_dec ops (sched1 ++ sched2) (start ops init)).
Proof.
  intros ops. rewrite exec_app.
  apply (inv_exec (ops := ops) (fun v => fst (exec Z.eq_dec ops sched1 (start ops init)) <= v)).
  - intros o v Hin Hg Hv. apply in_map_iff in Hin. destruct Hin as [b [<- _]]. simpl in *. lia.
  - apply guarded_exec, guarded_start.
  - lia.
Qed.

Lemma add_mod_fold w bs order : forall v,
  fst (replay (fun i v => seq_fetch_add w v (nth i bs 0)) v order) mod 2 ^ w =
  (fold_right Z.add v (map (fun i => nth i bs 0) order)) mod 2 ^ w.
Proof.
  assert (Hf : forall l v, fold_right Z.add v l = v + fold_right Z.add 0 l).
  { induction l as [|a l IH]; intros v; simpl; [lia|]. rewrite IH. lia. }
  induction order as [|i order IH]; intros v; simpl; auto.
  specialize (IH ((v + nth i bs 0) mod 2 ^ w)).
  destruct (replay _ _ order); simpl in *. rewrite IH. rewrite Hf.
  rewrite (Hf _ v).
  destruct (Z.eq_dec (2 ^ w) 0) as [E|E].
  - rewrite E. rewrite !Zmod_0_r. lia.
  - rewrite Z.add_mod_idemp_l by auto. f_equal. lia.
Qed.

Lemma wrap_ok w v : 0 <= w -> 0 <= v < 2 ^ w -> v mod 2 ^ w = v.
Proof. intros _ H. now apply Z.mod_small. Qed.

Lemma fetch_add_final w init bs sched : 0 <= w -> 0 <= init < 2 ^ w ->
  let ops := map (fetch_and_add w) bs in
  let s := exec Z.eq_dec ops sched (start ops init) in
  (forall i, (i < length bs)%nat -> result s i <> None) ->
  fst s = (fold_right Z.add init bs) mod 2 ^ w.
Proof.
  intros Hw Hi ops s H.
  destruct (@all_done_order _ _ Z.eq_dec ops
              (fun i v => seq_fetch_add w v (nth i bs 0)) (@call_fetch_add w bs) init sched) as (order & Hp & Hv & _).
  { unfold ops. rewrite map_length. exact H. }
  fold s in Hv.
  assert (Hr : 0 <= fst s < 2 ^ w).
  { apply (inv_exec (ops := ops) (fun v => 0 <= v < 2 ^ w)).
    - intros o v Hin _ _. apply in_map_iff in Hin. destruct Hin as [b [<- _]]. simpl.
      apply Z.mod_pos_bound. lia.
    - apply guarded_start.
    - exact Hi. }
  rewrite <- (wrap_ok (v := fst s) Hw Hr), <- Hv, add_mod_fold. f_equal.
  unfold ops in Hp. rewrite map_length in Hp.
  rewrite (fold_add_perm init (l2 := map (fun i => nth i bs 0) (seq 0 (length bs)))).
  - now rewrite map_nth_seq.
  - now apply Permutation_map.
Qed.

Lemma write_add_final w init bs sched : 0 <= w -> 0 <= init < 2 ^ w ->
  let ops := map (write_add w) bs in
  let s := exec Z.eq_dec ops sched (start ops init) in
  (forall i, (i < length bs)%nat -> result s i <> None) ->
  fst s = (fold_right Z.add init bs) mod 2 ^ w.
Proof.
  intros Hw Hi ops s H.
  destruct (@all_done_order _ _ Z.eq_dec ops
              (fun i v => seq_write_add w v (nth i bs 0)) (@call_write_add w bs) init sched) as (order & Hp & Hv & _).
  { unfold ops. rewrite map_length. exact H. }
  fold s in Hv.
  assert (Hr : 0 <= fst s < 2 ^ w).
  { apply (inv_exec (ops := ops) (fun v => 0 <= v < 2 ^ w)).
    - intros o v Hin _ _. apply in_map_iff in Hin. destruct Hin as [b [<- _]]. simpl.
      apply Z.mod_pos_bound. lia.
    - apply guarded_start.
    - exact Hi. }
  assert (Hsame : forall order v, fst (replay (fun i v => seq_write_add w v (nth i bs 0)) v order) =
                                  fst (replay (fun i v => seq_fetch_add w v (nth i bs 0)) v order)).
  { clear. induction order as [|i order IH]; intros v; simpl; auto.
    specialize (IH ((v + nth i bs 0) mod 2 ^ w)).
    destruct (replay (fun i v => seq_write_add w v (nth i bs 0)) _ order), (replay (fun i v => seq_fetch_add w v (nth i bs 0)) _ order); auto. }
  rewrite <- (wrap_ok (v := fst s) Hw Hr), <- Hv, Hsame, add_mod_fold. f_equal.
  unfold ops in Hp. rewrite map_length in Hp.
  rewrite (fold_add_perm init (l2 := map (fun i => nth i bs 0) (seq 0 (length bs)))).
  - now rewrite map_nth_seq.
  - now apply Permutation_map.
Qed.

Lemma threshold_bound w mx init bs B sched : 0 <= w ->
  (forall b, In b bs -> 0 <= b <= B) -> 0 <= init < 2 ^ w -> mx + B < 2 ^ w ->
  let ops := map (fun b => fetch_and_add_threshold w b mx) bs in
  init <= fst (exec Z.eq_dec ops sched (start ops init)) <= Z.max init (mx + B).
Proof.
  intros Hw Hb Hi Hm ops.
  apply (inv_exec (ops := ops) (fun v => init <= v <= Z.max init (mx + B))).
  - intros o v Hin Hg Hv. apply in_map_iff in Hin. destruct Hin as [b [<- Hin]]. simpl in *.
    specialize (Hb _ Hin). apply Z.leb_le in Hg. unfold wadd. rewrite Z.mod_small; lia.
  - apply guarded_start.
  - simpl; lia.
Qed.

Definition succ_sum (bs : list Z) (res : nat -> option (option Z)) : Z :=
  fold_right Z.add 0
    (map (fun i => match res i with Some (Some _) => nth i bs 0 | _ => 0 end) (seq 0 (length bs))).

Lemma sum_change (f g : nat -> Z) i d l : NoDup l -> In i l ->
  (forall j, j <> i -> g j = f j) -> g i = f i + d ->
  fold_right Z.add 0 (map g l) = fold_right Z.add 0 (map f l) + d.
Proof.
  induction l as [|a l IH]; intros ND Hin Hne Hi; [easy|].
  inversion ND as [|? ? Hna ND']; subst. simpl.
  destruct (Nat.eq_dec a i) as [->|Ha].
  - assert (map g l = map f l) as ->.
    { apply map_ext_in. intros x Hx. apply Hne. intros ->. contradiction. }
    lia.
  - destruct Hin as [->|Hin]; [congruence|]. rewrite IH by auto. rewrite Hne by auto. lia.
Qed.

Lemma sum_same (f g : nat -> Z) l : (forall j, g j = f j) ->
  fold_right Z.add 0 (map g l) = fold_right Z.add 0 (map f l).
Proof. intros H. now rewrite (map_ext _ _ H). Qed.

Lemma threshold_sum w mx init bs B sched : 0 <= w ->
  (forall b, In b bs -> 0 <= b <= B) -> 0 <= init < 2 ^ w -> mx + B < 2 ^ w ->
  let ops := map (fun b => fetch_and_add_threshold w b mx) bs in
  let s := exec Z.eq_dec ops sched (start ops init) in
  fst s = init + succ_sum bs (fun i => result s i).
Proof.
  intros Hw Hb Hi Hm ops. cbv zeta.
  induction sched as [|a sched IH] using rev_ind.
  - simpl. unfold succ_sum.
    rewrite (@sum_same (fun _ => 0)).
    + assert (forall l : list nat, fold_right Z.add 0 (map (fun _ => 0) l) = 0) as ->; [|lia].
      induction l; simpl; auto.
    + intros j. unfold result, start; simpl. rewrite nth_error_map.
      destruct (nth_error ops j); reflexivity.
  - rewrite exec_snoc. set (s := exec Z.eq_dec ops sched (start ops init)) in *.
    assert (Hg : guarded ops s) by apply guarded_exec, guarded_start.
    assert (Hl : length (snd s) = length ops).
    { unfold s. rewrite exec_length. simpl. now rewrite map_length. }
    assert (Hbd : init <= fst s <= Z.max init (mx + B)) by (apply threshold_bound; auto).
    unfold sys_step. destruct (nth_error ops a) as [o|] eqn:Eo; auto.
    destruct (nth_error (snd s) a) as [p|] eqn:Ep; auto.
    destruct s as [m l]; simpl in *.
    assert (Ha : (a < length l)%nat) by (apply nth_error_Some; congruence).
    pose proof Eo as Eo'. apply nth_error_map_nth with (d := 0) in Eo'.
    assert (Hab : (a < length bs)%nat).
    { assert (a < length ops)%nat by (apply nth_error_Some; congruence).
      unfold ops in H. now rewrite map_length in H. }
    assert (Hin : In (nth a bs 0) bs) by now apply nth_In.
    specialize (Hb _ Hin).
    assert (Hres : forall m' p' j, result (m', lset l a p') j =
        if Nat.eq_dec a j then match p' with Done r => Some r | _ => None end else result (m, l) j).
    { intros m' p' j. destruct (Nat.eq_dec a j) as [->|Hne].
      - now apply result_lset_same.
      - rewrite result_lset_other by auto. reflexivity. }
    assert (Hold : result (m, l) a = match p with Done r => Some r | _ => None end).
    { unfold result; simpl. now rewrite Ep. }
    assert (Silent : forall p', (forall r, p' <> Done (Some r)) -> (forall r, p <> Done (Some r)) ->
       m = init + succ_sum bs (fun i => result (m, lset l a p') i)).
    { intros p' H1 H2. rewrite IH. f_equal. unfold succ_sum. apply sum_same.
      intros j. rewrite Hres. destruct (Nat.eq_dec a j) as [<-|Hne]; auto.
      rewrite Hold. destruct p as [| |[r|]]; destruct p' as [| |[r'|]]; auto;
        try (exfalso; eapply H1; reflexivity); try (exfalso; eapply H2; reflexivity). }
    destruct p as [|c|r]; simpl.
    + destruct (guard o m); simpl.
      * apply Silent; congruence.
      * rewrite Eo'. simpl. apply Silent; congruence.
    + destruct (Z.eq_dec m c) as [<-|Hne]; simpl.
      * assert (Hgm : guard o m = true) by (eapply Hg; eauto; exact Ep).
        rewrite Eo' in *. simpl in *. apply Z.leb_le in Hgm.
        unfold wadd. rewrite Z.mod_small by lia.
        rewrite IH at 1. unfold succ_sum.
        erewrite (@sum_change
          (fun i => match result (m, l) i with Some (Some _) => nth i bs 0 | _ => 0 end)
          (fun i => match result (m, lset l a (Done (Some m))) i with Some (Some _) => nth i bs 0 | _ => 0 end)
          a (nth a bs 0)).
        -- lia.
        -- apply seq_NoDup.
        -- apply in_seq. lia.
        -- intros j Hj. rewrite Hres. destruct (Nat.eq_dec a j); congruence.
        -- rewrite Hres, Hold. destruct (Nat.eq_dec a a); [lia|congruence].
      * apply Silent; congruence.
    + rewrite IH at 1. f_equal. unfold succ_sum. apply sum_same.
      intros j.
      rewrite Hres. destruct (Nat.eq_dec a j) as [<-|Hne]; auto. now rewrite Hold.
Qed.

Lemma threshold_failed_saw w mx init bs sched i :
  let ops := map (fun b => fetch_and_add_threshold w b mx) bs in
  result (exec Z.eq_dec ops sched (start ops init)) i = Some None ->
  exists k, (k <= length sched)%nat /\ fst (exec Z.eq_dec ops (firstn k sched) (start ops init)) > mx.
Proof.
  intros ops. induction sched as [|a sched IH] using rev_ind.
  - unfold result, start; simpl. rewrite nth_error_map. destruct (nth_error ops i); discriminate.
  - rewrite exec_snoc. set (s := exec Z.eq_dec ops sched (start ops init)) in *.
    intros H.
    assert (Hcase : result s i = Some None \/ fst s > mx).
    { revert H. unfold sys_step. destruct (nth_error ops a) as [o|] eqn:Eo; auto.
      destruct (nth_error (snd s) a) as [p|] eqn:Ep; auto.
      destruct (tstep Z.eq_dec o (fst s) p) as [m' p'] eqn:Et.
      assert (Ha : (a < length (snd s))%nat) by (apply nth_error_Some; congruence).
      apply nth_error_map_nth with (d := 0) in Eo.
      unfold result; simpl. destruct (Nat.eq_dec a i) as [->|Hne].
      - rewrite nth_error_lset_same by auto. rewrite Ep.
        destruct p as [|c|r]; simpl in Et.
        + subst o; simpl in Et. destruct (Z.leb_spec (fst s) mx); injection Et as <- <-; [discriminate|].
          intros _. right. lia.
        + subst o; simpl in Et. destruct (Z.eq_dec (fst s) c); injection Et as <- <-; discriminate.
        + injection Et as <- <-. auto.
      - rewrite nth_error_lset_other by auto. auto. }
    rewrite app_length; simpl. destruct Hcase as [Hr|Hm].
    + destruct (IH Hr) as [k [Hk Hv]]. exists k. split; [lia|].
      rewrite firstn_app. replace (k - length sched)%nat with 0%nat by lia.
      simpl. now rewrite app_nil_r.
    + exists (length sched). split; [lia|]. rewrite firstn_app, Nat.sub_diag. simpl.
      rewrite app_nil_r, firstn_all. exact Hm.
Qed.
