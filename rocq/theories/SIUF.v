(* Union-find on a part of the array: the calls of unite and find touch only entries of a set that
   contains the arguments and the parents of its members. *)
From Verif Require Import Base ListUtil UFSpec UFRoots UFModel UFLogic UFFind UFUnite UFSys UFWait.
Unset Strict Implicit.

Section Closed.
  Variable C : nat -> Prop.
  (* every access is to C, all values written are in C, and results satisfy Q *)
  CoInductive closed (Q : nat -> Prop) : prog -> Prop :=
  | c_ret r : Q r -> closed Q (Ret r)
  | c_rd a k : C a -> (forall v, C v -> closed Q (k v)) -> closed Q (Rd a k)
  | c_wr a v k : C a -> C v -> closed Q k -> closed Q (Wr a v k)
  | c_cas a old new k : C a -> C new -> (forall b, closed Q (k b)) -> closed Q (Cas a old new k)
  | c_bind p k : closed C p -> (forall r, C r -> closed Q (k r)) -> closed Q (Bind p k).
  Fixpoint closed_at (st : list (nat -> prog)) (p : prog) : Prop :=
    match st with
    | [] => closed (fun _ => True) p
    | k :: st' => closed C p /\ forall r, C r -> closed_at st' (k r)
    end.

  Lemma closed_loop2 i j : C i -> C j -> closed C (find_compress_loop2 i j).
  Proof.
    revert i. cofix IH. intros i Hi Hj. rewrite (frob_eq (find_compress_loop2 i j)). cbn -[Nat.ltb Nat.eqb]. apply c_rd; auto. intros v Hv.
    destruct (j <? v); [|now apply c_ret]. apply c_wr; auto.
  Qed.
  Lemma closed_loop1 i j : C i -> C j -> closed C (find_compress_loop1 i j).
  Proof.
    revert j. cofix IH. intros j Hi Hj. rewrite (frob_eq (find_compress_loop1 i j)). cbn -[Nat.ltb Nat.eqb]. apply c_rd; auto. intros v Hv. apply c_rd; auto. intros w Hw.
    destruct (w =? v); [now apply closed_loop2|]. now apply IH.
  Qed.
  Lemma closed_find i : C i -> closed C (find_compress i).
  Proof. intros Hi. apply c_rd; auto. intros v Hv. destruct (v =? i); [now apply c_ret|now apply closed_loop1]. Qed.
  Lemma closed_unite mx u v : C u -> C v -> closed (fun _ => True) (unite_loop mx FindCompress u v).
  Proof.
    revert u v. cofix IH. intros u v Hu Hv. rewrite (frob_eq (unite_loop mx FindCompress u v)). cbn -[Nat.ltb Nat.eqb]. apply c_bind; [now apply closed_find|]. intros u' Hu'.
    apply c_bind; [now apply closed_find|]. intros v' Hv'. destruct (u' =? v'); [now apply c_ret|]. destruct (v' <? u').
    - apply c_rd; auto. intros p Hp. destruct (p =? u'); [|now apply IH]. apply c_cas; auto. intros [|]; [now apply c_ret|now apply IH].
    - apply c_rd; auto. intros p Hp. destruct (p =? v'); [|now apply IH]. apply c_cas; auto. intros [|]; [now apply c_ret|now apply IH].
  Qed.
  Lemma closed_label i : C i -> closed (fun _ => True) (label_vertex FindCompress i).
  Proof. intros Hi. apply c_bind; [now apply closed_find|]. intros r Hr. apply c_wr; auto. now apply c_ret. Qed.

  (* two memories that agree on C *)
  Variable n : nat.
  Hypothesis HC : forall x, C x -> x < n.
  Definition agree (P P' : nat -> nat) : Prop := forall x, C x -> P x = P' x /\ C (P x).
  Lemma agree_set P P' a v : agree P P' -> C v -> agree (fset P a v) (fset P' a v).
  Proof. intros H Hv x Hx. unfold fset. destruct (x =? a); auto. Qed.
  Lemma step_agree t st p m m' : closed_at st p -> agree (par m) (par m') ->
    let r := tstep n t m (p, st) in let r' := tstep n t m' (p, st) in
    snd r = snd r' /\ agree (par (fst r)) (par (fst r')) /\ closed_at (snd (snd r)) (fst (snd r)) /\ (forall x, ~ C x -> par (fst r) x = par m x).
  Proof.
    intros Hc Ha r r'. unfold r, r'. clear r r'.
    assert (L : forall a, C a -> (a <? n) = true) by (intros a H; apply Nat.ltb_lt; auto).
    assert (Out : forall (P : nat -> nat) a v x, C a -> ~ C x -> fset P a v x = P x) by (intros P a v x H1 H2; apply fset_other; intros ->; contradiction).
    destruct st as [|k0 st]; cbn [closed_at] in Hc.
    - inversion Hc as [r Hr|a k H1 H2|a v k H1 H2 H3|a old new k H1 H2 H3|q k H1 H2]; subst p; cbn [tstep]; rewrite ?L by auto; cbn [fst snd par set_par].
      + auto.
      + destruct (Ha a H1) as [<- Hv]. split; auto. split; auto. split; [|auto]. cbn. auto.
      + split; auto. split; [now apply agree_set|]. split; [cbn; auto|]. intros x Hx. now apply Out.
      + destruct (Ha a H1) as [<- Hv]. destruct (par m a =? old); cbn [fst snd par set_par].
        * split; auto. split; [now apply agree_set|]. split; [cbn; auto|]. intros x Hx. now apply Out.
        * split; auto. split; auto. split; [cbn; auto|auto].
      + split; auto. split; auto. split; [cbn; auto|auto].
    - destruct Hc as [Hc Hk].
      inversion Hc as [r Hr|a k H1 H2|a v k H1 H2 H3|a old new k H1 H2 H3|q k H1 H2]; subst p; cbn [tstep]; rewrite ?L by auto; cbn [fst snd par set_par].
      + split; auto.
      + destruct (Ha a H1) as [<- Hv]. split; auto. split; auto. split; [|auto]. cbn. auto.
      + split; auto. split; [now apply agree_set|]. split; [cbn; auto|]. intros x Hx. now apply Out.
      + destruct (Ha a H1) as [<- Hv]. destruct (par m a =? old); cbn [fst snd par set_par].
        * split; auto. split; [now apply agree_set|]. split; [cbn; auto|]. intros x Hx. now apply Out.
        * split; auto. split; auto. split; [cbn; auto|auto].
      + split; auto. split; auto. split; [|auto]. cbn [closed_at]. split; auto.
  Qed.
  Lemma exec_agree sched : forall s s', snd s = snd s' -> agree (par (fst s)) (par (fst s')) -> (forall t p st, nth_error (snd s) t = Some (p, st) -> closed_at st p) ->
    let r := exec n sched s in let r' := exec n sched s' in
    snd r = snd r' /\ agree (par (fst r)) (par (fst r')) /\ (forall x, ~ C x -> par (fst r) x = par (fst s) x).
  Proof.
    induction sched as [|t sched IH]; intros s s' Es Ha Hc; cbn; auto.
    set (s1 := sys_step n s t). set (s1' := sys_step n s' t).
    assert (X : snd s1 = snd s1' /\ agree (par (fst s1)) (par (fst s1')) /\ (forall t p st, nth_error (snd s1) t = Some (p, st) -> closed_at st p) /\ (forall x, ~ C x -> par (fst s1) x = par (fst s) x)).
    { unfold s1, s1', sys_step. destruct s as [m0 ths], s' as [m0' ths']. cbn [fst snd] in *. subst ths'. cbn [fst snd]. unfold thread in *. destruct (nth_error ths t) as [[p st]|] eqn:E; [|auto].
      destruct (@step_agree t st p m0 m0' (Hc _ _ _ E) Ha) as (A1 & A2 & A3 & A4). destruct (tstep n t m0 (p, st)) as [m1 th1], (tstep n t m0' (p, st)) as [m1' th1']. cbn [fst snd] in *.
      subst th1'. split; auto. split; auto. split; auto. intros t' p' st' E'. destruct (Nat.eq_dec t' t) as [->|Ht].
      - rewrite nth_error_lset_same in E' by (apply nth_error_Some; congruence). injection E' as ->. exact A3.
      - rewrite nth_error_lset_other in E' by auto. eauto. }
    destruct X as (X1 & X2 & X3 & X4). destruct (IH s1 s1' X1 X2 X3) as (Y1 & Y2 & Y3). split; auto. split; auto. intros x Hx. rewrite Y3, X4; auto.
  Qed.
  Lemma init_agree sched ps P P' : agree P P' -> (forall p, In p ps -> closed (fun _ => True) p) ->
    let r := exec n sched (init P ps) in let r' := exec n sched (init P' ps) in
    snd r = snd r' /\ agree (par (fst r)) (par (fst r')) /\ (forall x, ~ C x -> par (fst r) x = P x).
  Proof.
    intros Ha Hp. apply exec_agree; auto. intros t p st E. cbn in E. rewrite nth_error_map in E. destruct (nth_error ps t) as [q|] eqn:Eq; [|discriminate]. injection E as <- <-.
    cbn. apply Hp. now apply nth_error_In in Eq.
  Qed.
End Closed.

(* labelling only some vertices *)
Section Labels.
  Variable n : nat.
  Variable cs : list nat.
  Hypothesis Hcs : forall x, In x cs -> x < n.
  Theorem some_labels_correct P0 sched : (forall x, P0 x <= x) ->
    let s := exec n sched (init P0 (map (label_vertex FindCompress) cs)) in
    (forall x, root (par (fst s)) x = root P0 x) /\ (forall x, par (fst s) x <= x) /\
    ((forall t, t < length cs -> exists r, returned s t r) -> forall x, In x cs -> par (fst s) x = root P0 x).
  Proof.
    intros Hd s. set (C := fun x y => root P0 x = root P0 y).
    assert (Crefl : forall x, C x x) by (intros; reflexivity).
    assert (Csym : forall x y, C x y -> C y x) by (unfold C; congruence).
    assert (Ctrans : forall x y z, C x y -> C y z -> C x z) by (unfold C; congruence).
    set (s0 := init P0 (map (label_vertex FindCompress) cs)). set (Q := fun t => flat_post (nth t cs 0)).
    assert (Hi0 : Inv C (fst s0)) by (split; simpl; auto; intros x; unfold C; symmetry; now apply root_par).
    assert (H0 : forall k, sys_safe n C Label k (fun _ => True) s0 Q).
    { intros k. split; auto. intros t q st _ Ht. unfold s0 in Ht. simpl in Ht. rewrite map_map, nth_error_map in Ht.
      destruct (nth_error cs t) as [i|] eqn:Et; [|discriminate]. simpl in Ht. injection Ht as <- <-. unfold Q. rewrite (nth_error_nth _ _ 0 Et). simpl. apply label_safe; auto.
      apply Hcs. now apply nth_error_In in Et. }
    assert (H1 : sys_safe n C Label 1 (fun _ => True) s Q) by (apply sys_safe_exec; auto).
    assert (G : forall sch k s, sys_safe n C Label (length sch + k) (fun _ => True) s Q -> forall x, root (par (fst (exec n sch s))) x = root (par (fst s)) x).
    { induction sch as [|t sch IH]; intros k s' Hs x; simpl; auto. rewrite (IH k) by (apply sys_safe_step; auto).
      destruct Hs as [Hi Hs]. unfold sys_step. destruct (nth_error (snd s') t) as [[q st]|] eqn:Et; auto.
      destruct (tstep n t (fst s') (q, st)) as [m' [p' st']] eqn:Est. simpl.
      pose proof (@safe_thread_step n C _ _ _ _ _ _ _ Hi (Hs _ _ _ I Et)) as H. rewrite Est in H.
      destruct H as [Hg _]. destruct (guar_root Hi Hg) as [H|(a & b & Hc & _)]; [auto|congruence]. }
    pose proof (G sched 0 _ (H0 (length sched + 0))) as Hroots. simpl in Hroots. fold s in Hroots.
    destruct H1 as [Hi1 Hs1]. split; [exact Hroots|]. split; [exact (proj1 Hi1)|].
    intros Hall x Hx. apply In_nth_error in Hx as (t & Et). destruct (Hall t) as [r Hret]; [apply nth_error_Some; congruence|].
    pose proof (@sys_safe_returned n C Label (fun _ => True) s Q t r (conj Hi1 Hs1) I Hret) as HQ. unfold Q, flat_post in HQ. rewrite (nth_error_nth _ _ 0 Et) in HQ. now rewrite HQ, Hroots.
  Qed.
  Theorem some_labels_return P0 sched t : (forall x, P0 x <= x) -> t < length cs -> wait_free_steps n <= count_occ Nat.eq_dec sched t ->
    exists r, returned (exec n sched (init P0 (map (label_vertex FindCompress) cs))) t r.
  Proof.
    intros Hd Ht Hc. set (C := fun x y => root P0 x = root P0 y).
    assert (Crefl : forall x, C x x) by (intros; reflexivity).
    assert (Csym : forall x y, C x y -> C y x) by (unfold C; congruence).
    assert (Ctrans : forall x y z, C x y -> C y z -> C x z) by (unfold C; congruence).
    set (s0 := init P0 (map (label_vertex FindCompress) cs)).
    assert (Hi0 : Inv C (fst s0)) by (split; simpl; auto; intros x; unfold C; symmetry; now apply root_par).
    assert (Hat : forall t' q st, nth_error (snd s0) t' = Some (q, st) -> exists i, In i cs /\ nth t' cs 0 = i /\ q = label_vertex FindCompress i /\ st = []).
    { intros t' q st E. unfold s0 in E. simpl in E. rewrite map_map, nth_error_map in E. destruct (nth_error cs t') as [i|] eqn:Ei; [|discriminate]. injection E as <- <-.
      exists i. split; [now apply nth_error_In in Ei|]. split; [now apply nth_error_nth|auto]. }
    eapply exec_ends with (C := C) (md := Label) (Q := fun t => flat_post (nth t cs 0)) (b := fun _ => wait_free_steps n); auto.
    - intros k. split; auto. intros t' q st _ E. apply Hat in E as (i & Hi & Ei & -> & ->). rewrite Ei. simpl. apply label_safe; auto.
    - intros t' q st E. apply Hat in E as (i & Hi & Ei & -> & ->). apply label_ends; auto.
    - simpl. now rewrite !map_length.
  Qed.
End Labels.

(* Components of a part of the vertices.  In: P, whose entries in C stay in C and point down; E: pairs
   of members of C *)
Section Part.
  Variable n mx : nat.
  Variable cs : list nat.
  Variable P : nat -> nat.
  Variable E : list (nat * nat).
  Hypothesis Hcs : forall x, In x cs -> x < n.
  Hypothesis HP : forall x, In x cs -> In (P x) cs /\ P x <= x.
  Hypothesis HE : forall u v, In (u, v) E -> In u cs /\ In v cs.
  Definition joined_by (x y : nat) : Prop := clos_refl_sym_trans nat (fun a b => In (a, b) E \/ (In a cs /\ b = P a)) x y.
  Definition P' (x : nat) : nat := if existsb (Nat.eqb x) cs then P x else x.
  Lemma P'_in x : In x cs -> P' x = P x.
  Proof. intros H. unfold P'. assert (X : existsb (Nat.eqb x) cs = true) by (apply existsb_exists; exists x; split; auto; apply Nat.eqb_refl). now rewrite X. Qed.
  Lemma P'_down x : P' x <= x.
  Proof. unfold P'. destruct (existsb (Nat.eqb x) cs) eqn:X; auto. apply existsb_exists in X as (y & Hy & Ey). apply Nat.eqb_eq in Ey. subst y. now apply HP. Qed.
  Lemma joined_P' x y : connected_from P' E x y <-> joined_by x y.
  Proof.
    split; induction 1 as [a b [H|H]|a|a b H IH|a b c H1 IH1 H2 IH2]; try (apply rst_refl); try (now apply rst_sym); try (eapply rst_trans; eauto; fail).
    - apply rst_step. auto.
    - unfold P' in H. destruct (existsb (Nat.eqb a) cs) eqn:X; [|subst; apply rst_refl]. apply rst_step. right. split; auto. apply existsb_exists in X as (y' & Hy & Ey). apply Nat.eqb_eq in Ey. now subst.
    - apply rst_step. auto.
    - apply rst_step. right. destruct H as [H1 ->]. now rewrite P'_in.
  Qed.
  Let unites := map (fun e => unite mx FindCompress UUnite (fst e) (snd e)) E.
  Let labels := map (label_vertex FindCompress) cs.
  Lemma unites_closed p : In p unites -> closed (fun x => In x cs) (fun _ => True) p.
  Proof. intros H. apply in_map_iff in H as ((u & v) & <- & H). apply HE in H as [H1 H2]. now apply closed_unite. Qed.
  Lemma labels_closed p : In p labels -> closed (fun x => In x cs) (fun _ => True) p.
  Proof. intros H. apply in_map_iff in H as (x & <- & H). now apply closed_label. Qed.
  Lemma start_agree : agree (fun x => In x cs) P P'.
  Proof. intros x Hx. rewrite P'_in by auto. split; auto. now apply HP. Qed.
  Lemma in_rng : in_range n (map (fun e => Insert (fst e) (snd e)) E).
  Proof. intros x Hx. apply in_map_iff in Hx as ((u & v) & <- & H). apply HE in H as [H1 H2]. cbn. auto. Qed.
  Lemma unites_updates : unites = map (run_update mx FindCompress UUnite) (map (fun e => Insert (fst e) (snd e)) E).
  Proof. unfold unites. now rewrite map_map. Qed.

  Theorem part_components sched1 sched2 :
    let s1 := exec n sched1 (init P unites) in
    (forall t, t < length E -> exists r, returned s1 t r) ->
    let s2 := exec n sched2 (init (par (fst s1)) labels) in
    (forall t, t < length cs -> exists r, returned s2 t r) ->
    let L := par (fst s2) in
    (forall x y, In x cs -> In y cs -> (L x = L y <-> joined_by x y)) /\
    (forall x, In x cs -> In (L x) cs /\ L x <= x /\ L (L x) = L x) /\
    (forall x, ~ In x cs -> L x = P x).
  Proof.
    intros s1 R1 s2 R2 L.
    destruct (@init_agree (fun x => In x cs) n Hcs sched1 unites P P' start_agree unites_closed) as (A1 & A2 & A3). fold s1 in A1, A2, A3. set (s1' := exec n sched1 (init P' unites)) in *.
    destruct (@init_agree (fun x => In x cs) n Hcs sched2 labels (par (fst s1)) (par (fst s1')) A2 labels_closed) as (B1 & B2 & B3). fold s2 in B1, B2, B3. set (s2' := exec n sched2 (init (par (fst s1')) labels)) in *.
    assert (No : no_splice_atomic UUnite) by (split; discriminate).
    assert (Ins : inserted (map (fun e => Insert (fst e) (snd e)) E) = E).
    { unfold inserted. clear. induction E as [|[a b] E' IH]; simpl; auto. now rewrite IH. }
    pose proof (@run_sound n mx FindCompress UUnite No P' _ sched1 P'_down in_rng) as (_ & D1 & _). rewrite <- unites_updates in D1. fold s1' in D1.
    pose proof (@run_complete n mx FindCompress UUnite No P' _ sched1 P'_down in_rng) as J. cbv zeta in J. rewrite <- unites_updates in J. fold s1' in J. rewrite map_length, Ins in J.
    specialize (J (fun t Ht => match R1 t Ht with ex_intro _ r H => ex_intro _ r (eq_trans (f_equal (fun l => nth_error l t) (eq_sym A1)) H) end)).
    destruct (@some_labels_correct n cs Hcs (par (fst s1')) sched2 D1) as (F1 & F2 & F3). fold labels in F1, F2, F3. fold s2' in F1, F2, F3.
    specialize (F3 (fun t Ht => match R2 t Ht with ex_intro _ r H => ex_intro _ r (eq_trans (f_equal (fun l => nth_error l t) (eq_sym B1)) H) end)).
    assert (EL : forall x, In x cs -> L x = root (par (fst s1')) x) by (intros x Hx; unfold L; rewrite (proj1 (B2 x Hx)); now apply F3).
    split; [|split].
    - intros x y Hx Hy. rewrite !EL, <- joined_P', <- (J x y), same_tree_iff by auto. tauto.
    - intros x Hx. assert (Hl : In (L x) cs) by exact (proj2 (B2 x Hx)). split; auto. rewrite (EL (L x) Hl). rewrite EL by auto. split; [now apply root_le|]. now apply root_root.
    - intros x Hx. unfold L. rewrite B3, A3; auto.
  Qed.
  Theorem part_unites_return sched t : t < length E -> wait_free_steps n <= count_occ Nat.eq_dec sched t -> exists r, returned (exec n sched (init P unites)) t r.
  Proof.
    intros Ht Hs. destruct (@init_agree (fun x => In x cs) n Hcs sched unites P P' start_agree unites_closed) as (A1 & _ & _).
    destruct (@updates_return n mx FindCompress UUnite P' (map (fun e => Insert (fst e) (snd e)) E) sched) with (t := t) as (r & Hr); auto.
    - exact I.
    - exact P'_down.
    - exact in_rng.
    - now rewrite map_length.
    - exists r. unfold returned in *. rewrite A1, unites_updates. exact Hr.
  Qed.
  Theorem part_labels_return sched1 sched2 t : let s1 := exec n sched1 (init P unites) in t < length cs -> wait_free_steps n <= count_occ Nat.eq_dec sched2 t ->
    exists r, returned (exec n sched2 (init (par (fst s1)) labels)) t r.
  Proof.
    intros s1 Ht Hs. destruct (@init_agree (fun x => In x cs) n Hcs sched1 unites P P' start_agree unites_closed) as (A1 & A2 & _). fold s1 in A1, A2. set (s1' := exec n sched1 (init P' unites)) in *.
    destruct (@init_agree (fun x => In x cs) n Hcs sched2 labels (par (fst s1)) (par (fst s1')) A2 labels_closed) as (B1 & _ & _).
    assert (No : no_splice_atomic UUnite) by (split; discriminate).
    pose proof (@run_sound n mx FindCompress UUnite No P' _ sched1 P'_down in_rng) as (_ & D1 & _). rewrite <- unites_updates in D1. fold s1' in D1.
    destruct (@some_labels_return n cs Hcs (par (fst s1')) sched2 t D1 Ht Hs) as (r & Hr). exists r. unfold returned in *. now rewrite B1.
  Qed.
End Part.
