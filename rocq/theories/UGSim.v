(* Union-find from a labelling that is flat but not descending: renaming the vertices that are not
   labels to larger numbers turns every run into a run from a descending labelling. *)
From Verif Require Import Base UFSpec UFRoots UFModel UFLogic UFFind UFSys.
Unset Strict Implicit.

Section Sim.
  Variable n mx : nat.
  Variable ctr : nat -> bool.

  Definition sig (x : nat) : nat := if ctr x then x else n + x.
  Definition cv (x : nat) : Prop := x < n /\ ctr x = true.
  Definition srel (x x' : nat) : Prop := x < n /\ x' = sig x.

  Lemma cv_srel x : cv x -> srel x x.
  Proof. intros [H1 H2]. split; auto. unfold sig. now rewrite H2. Qed.
  Lemma sig_cv x : cv x -> sig x = x.
  Proof. intros [H1 H2]. unfold sig. now rewrite H2. Qed.
  Lemma sig_inj x y : x < n -> y < n -> sig x = sig y -> x = y.
  Proof. unfold sig. intros Hx Hy. destruct (ctr x), (ctr y); lia. Qed.
  Lemma sig_lt x : x < n -> sig x < n + n.
  Proof. unfold sig. intros Hx. destruct (ctr x); lia. Qed.
  Lemma srel_eqb x x' y y' : srel x x' -> srel y y' -> (x' =? y') = (x =? y).
  Proof.
    intros [Hx ->] [Hy ->]. destruct (Nat.eqb_spec x y) as [->|H]; [apply Nat.eqb_refl|].
    apply Nat.eqb_neq. intros E. apply H. now apply sig_inj.
  Qed.
  Lemma srel_cv x x' : srel x x' -> cv x -> x' = x.
  Proof. intros [_ ->] H. now apply sig_cv. Qed.

  Definition res := nat -> nat -> Prop.

  Fixpoint sim (k : nat) (p p' : prog) (S : res) : Prop :=
    match k with
    | 0 => True
    | Datatypes.S k =>
        match p, p' with
        | Ret r, Ret r' => S r r'
        | Rd a c, Rd a' c' => srel a a' /\ forall v, cv v -> sim k (c v) (c' v) S
        | Wr a v c, Wr a' v' c' => srel a a' /\ v' = v /\ cv v /\ sim k c c' S
        | Cas a o w c, Cas a' o' w' c' => srel a a' /\ o' = o /\ w' = w /\ cv w /\ forall b, sim k (c b) (c' b) S
        | RdL a c, RdL a' c' => srel a a' /\ forall b, sim k (c b) (c' b) S
        | CasL a c, CasL a' c' => srel a a' /\ forall b, sim k (c b) (c' b) S
        | ClrL a c, ClrL a' c' => srel a a' /\ sim k c c' S
        | Bind q c, Bind q' c' => sim k q q' (fun r r' => sim k (c r) (c' r') S)
        | _, _ => False
        end
    end.

  Lemma sim_mono k : forall k' p p' (S S' : res), k' <= k -> (forall r r', S r r' -> S' r r') ->
    sim k p p' S -> sim k' p p' S'.
  Proof.
    induction k as [|k IH]; intros k' p p' S S' Hk HS H.
    - assert (k' = 0) as -> by lia. exact I.
    - destruct k' as [|k']; [exact I|]. assert (Hk' : k' <= k) by lia. simpl in *.
      destruct p, p'; auto; try (destruct H as [H1 H2]; split; [auto|intros; eapply IH; eauto]).
      + destruct H as (H1 & H2 & H3 & H4). repeat split; try apply H1; try apply H3; auto. eapply IH; eauto.
      + destruct H as (H1 & H2 & H3 & H4 & H5). repeat split; try apply H1; try apply H4; auto. intros b. eapply IH; eauto.
      + eapply IH; [exact Hk'| |exact H]. intros r r' Hr. cbn beta in *. eapply IH; eauto.
  Qed.
  Lemma sim_index k k' p p' S : k' <= k -> sim k p p' S -> sim k' p p' S.
  Proof. intros. eapply sim_mono; eauto. Qed.

  Lemma sim_Bind k q q' c c' (S1 S : res) : (forall k', k' < k -> sim k' q q' S1) ->
    (forall k' r r', k' < k -> S1 r r' -> sim k' (c r) (c' r') S) -> sim k (Bind q c) (Bind q' c') S.
  Proof.
    destruct k as [|k]; [simpl; auto|]. intros Hq Hc. simpl. eapply sim_mono; [reflexivity| |apply Hq; lia].
    intros r r' Hr. cbn beta. apply Hc; auto.
  Qed.
  Lemma sim_Ret k r r' (S : res) : S r r' -> sim k (Ret r) (Ret r') S.
  Proof. destruct k; simpl; auto. Qed.
  Lemma sim_Rd k a a' c c' S : srel a a' -> (forall k' v, k' < k -> cv v -> sim k' (c v) (c' v) S) ->
    sim k (Rd a c) (Rd a' c') S.
  Proof. destruct k; simpl; auto. Qed.
  Lemma sim_Wr k a a' v c c' S : srel a a' -> cv v -> (forall k', k' < k -> sim k' c c' S) ->
    sim k (Wr a v c) (Wr a' v c') S.
  Proof. destruct k; simpl; auto 10. Qed.
  Lemma sim_Cas k a a' o w c c' S : srel a a' -> cv w -> (forall k' b, k' < k -> sim k' (c b) (c' b) S) ->
    sim k (Cas a o w c) (Cas a' o w c') S.
  Proof. destruct k; simpl; auto 10. Qed.
  Lemma sim_RdL k a a' c c' S : srel a a' -> (forall k' b, k' < k -> sim k' (c b) (c' b) S) ->
    sim k (RdL a c) (RdL a' c') S.
  Proof. destruct k; simpl; auto. Qed.
  Lemma sim_CasL k a a' c c' S : srel a a' -> (forall k' b, k' < k -> sim k' (c b) (c' b) S) ->
    sim k (CasL a c) (CasL a' c') S.
  Proof. destruct k; simpl; auto. Qed.
  Lemma sim_ClrL k a a' c c' S : srel a a' -> (forall k', k' < k -> sim k' c c' S) ->
    sim k (ClrL a c) (ClrL a' c') S.
  Proof. destruct k; simpl; auto. Qed.

  (* -- the programs ------------------------------------------------------------------- *)
  Definition fr : res := fun r r' => r' = r /\ cv r.
  Hint Resolve cv_srel : core.

  Lemma eqb_cv i i' p : srel i i' -> cv p -> (i' =? p) = (i =? p).
  Proof. intros Hi Hp. apply srel_eqb; auto. Qed.
  Lemma eqb_cv' i i' p : srel i i' -> cv p -> (p =? i') = (p =? i).
  Proof. intros Hi Hp. apply srel_eqb; auto. Qed.
  Lemma eq_fr i i' p : srel i i' -> cv p -> i = p -> fr i i'.
  Proof. intros Hi Hp ->. split; auto. eapply srel_cv; eauto. Qed.

  Lemma find_naive_sim : forall k i i', srel i i' -> sim k (find_naive i) (find_naive i') fr.
  Proof.
    induction k as [k IH] using lt_wf_ind. intros i i' Hi.
    rewrite (frob_eq (find_naive i)), (frob_eq (find_naive i')); simpl.
    apply sim_Rd; auto. intros k1 p Hk1 Hp. rewrite (eqb_cv Hi Hp). destruct (Nat.eqb_spec i p) as [E|E].
    - apply sim_Ret. now apply (eq_fr Hi Hp).
    - apply sim_Rd; auto. intros k2 q Hk2 Hq. apply IH; auto; lia.
  Qed.
  Lemma loop2_sim : forall k i i' j, srel i i' -> cv j -> sim k (find_compress_loop2 i j) (find_compress_loop2 i' j) fr.
  Proof.
    induction k as [k IH] using lt_wf_ind. intros i i' j Hi Hj.
    rewrite (frob_eq (find_compress_loop2 i j)), (frob_eq (find_compress_loop2 i' j)); simpl.
    apply sim_Rd; auto. intros k1 tmp Hk1 Ht. destruct (j <? tmp).
    - apply sim_Wr; auto. intros k2 Hk2. apply IH; auto; lia.
    - apply sim_Ret. split; auto.
  Qed.
  Lemma loop1_sim : forall k i i' j j', srel i i' -> srel j j' -> sim k (find_compress_loop1 i j) (find_compress_loop1 i' j') fr.
  Proof.
    induction k as [k IH] using lt_wf_ind. intros i i' j j' Hi Hj.
    rewrite (frob_eq (find_compress_loop1 i j)), (frob_eq (find_compress_loop1 i' j')); simpl.
    apply sim_Rd; auto. intros k1 a Hk1 Ha. apply sim_Rd; auto. intros k2 p Hk2 Hp. destruct (p =? a).
    - now apply loop2_sim.
    - apply IH; auto; lia.
  Qed.
  Lemma aloop2_sim : forall k i i' j, srel i i' -> cv j -> sim k (find_compress_atomic_loop2 i j) (find_compress_atomic_loop2 i' j) fr.
  Proof.
    induction k as [k IH] using lt_wf_ind. intros i i' j Hi Hj.
    rewrite (frob_eq (find_compress_atomic_loop2 i j)), (frob_eq (find_compress_atomic_loop2 i' j)); simpl.
    apply sim_Rd; auto. intros k1 tmp Hk1 Ht. destruct (j <? tmp).
    - apply sim_Cas; auto. intros k2 [|] Hk2; [apply IH; auto; lia|]. apply sim_Ret. split; auto.
    - apply sim_Ret. split; auto.
  Qed.
  Lemma aloop1_sim : forall k i i' j j', srel i i' -> srel j j' -> sim k (find_compress_atomic_loop1 i j) (find_compress_atomic_loop1 i' j') fr.
  Proof.
    induction k as [k IH] using lt_wf_ind. intros i i' j j' Hi Hj.
    rewrite (frob_eq (find_compress_atomic_loop1 i j)), (frob_eq (find_compress_atomic_loop1 i' j')); simpl.
    apply sim_Rd; auto. intros k1 a Hk1 Ha. apply sim_Rd; auto. intros k2 p Hk2 Hp. destruct (p =? a).
    - now apply aloop2_sim.
    - apply IH; auto; lia.
  Qed.
  Lemma split_sim : forall k i i', srel i i' -> sim k (find_atomic_split i) (find_atomic_split i') fr.
  Proof.
    induction k as [k IH] using lt_wf_ind. intros i i' Hi.
    rewrite (frob_eq (find_atomic_split i)), (frob_eq (find_atomic_split i')); simpl.
    apply sim_Rd; auto. intros k1 v Hk1 Hv. apply sim_Rd; auto. intros k2 w Hk2 Hw. destruct (v =? w).
    - apply sim_Ret. split; auto.
    - apply sim_Cas; auto. intros k3 b Hk3. apply IH; auto; lia.
  Qed.
  Lemma halve_sim : forall k i i', srel i i' -> sim k (find_atomic_halve i) (find_atomic_halve i') fr.
  Proof.
    induction k as [k IH] using lt_wf_ind. intros i i' Hi.
    rewrite (frob_eq (find_atomic_halve i)), (frob_eq (find_atomic_halve i')); simpl.
    apply sim_Rd; auto. intros k1 v Hk1 Hv. apply sim_Rd; auto. intros k2 w Hk2 Hw. destruct (v =? w).
    - apply sim_Ret. split; auto.
    - apply sim_Cas; auto. intros k3 b Hk3. apply sim_Rd; auto. intros k4 q Hk4 Hq. apply IH; auto; lia.
  Qed.
  Lemma find_sim f k i i' : srel i i' -> sim k (find f i) (find f i') fr.
  Proof.
    intros Hi. destruct f; simpl.
    - now apply find_naive_sim.
    - unfold find_compress. apply sim_Rd; auto. intros k1 p Hk1 Hp. rewrite (eqb_cv' Hi Hp). destruct (Nat.eqb_spec p i) as [E|E].
      + apply sim_Ret. now apply (eq_fr Hi Hp).
      + now apply loop1_sim.
    - unfold find_compress_atomic. apply sim_Rd; auto. intros k1 p Hk1 Hp. rewrite (eqb_cv' Hi Hp). destruct (Nat.eqb_spec p i) as [E|E].
      + apply sim_Ret. now apply (eq_fr Hi Hp).
      + now apply aloop1_sim.
    - now apply split_sim.
    - now apply halve_sim.
  Qed.
  Lemma splice_sim s k i i' x x' : srel i i' -> srel x x' -> sim k (splice s i x) (splice s i' x') fr.
  Proof.
    intros Hi Hx. destruct s; simpl; unfold split_atomic_one, halve_atomic_one, splice_atomic.
    - apply sim_Rd; auto. intros k1 v Hk1 Hv. apply sim_Rd; auto. intros k2 w Hk2 Hw. destruct (v =? w).
      + apply sim_Ret. split; auto.
      + apply sim_Cas; auto. intros k3 b Hk3. apply sim_Ret. split; auto.
    - apply sim_Rd; auto. intros k1 v Hk1 Hv. apply sim_Rd; auto. intros k2 w Hk2 Hw. destruct (v =? w).
      + apply sim_Ret. split; auto.
      + apply sim_Cas; auto. intros k3 b Hk3. apply sim_Ret. split; auto.
    - apply sim_Rd; auto. intros k1 v Hk1 Hv. apply sim_Rd; auto. intros k2 w Hk2 Hw.
      apply sim_Cas; auto. intros k3 b Hk3. apply sim_Ret. split; auto.
  Qed.

  Definition any : res := fun _ _ => True.
  Lemma any_Ret k r r' : sim k (Ret r) (Ret r') any.
  Proof. apply sim_Ret. exact I. Qed.

  Lemma compress_both_sim f k x x' y y' r r' : srel x x' -> srel y y' ->
    sim k (compress_both f x y r) (compress_both f x' y' r') any.
  Proof.
    intros Hx Hy. unfold compress_both. destruct (is_naive f); [apply any_Ret|].
    eapply sim_Bind. { intros. apply find_sim; eauto. } intros k1 a a' Hk1 _.
    eapply sim_Bind. { intros. apply find_sim; eauto. } intros k2 b b' Hk2 _. apply any_Ret.
  Qed.

  Lemma unite_loop_sim f : forall k u u' v v', srel u u' -> srel v v' ->
    sim k (unite_loop mx f u v) (unite_loop mx f u' v') any.
  Proof.
    induction k as [k IH] using lt_wf_ind. intros u u' v v' Hu Hv.
    rewrite (frob_eq (unite_loop mx f u v)), (frob_eq (unite_loop mx f u' v')); simpl.
    eapply sim_Bind. { intros. apply find_sim; eauto. } intros k1 a a' Hk1 [-> Ha].
    eapply sim_Bind. { intros. apply find_sim; eauto. } intros k2 b b' Hk2 [-> Hb].
    destruct (a =? b); [apply any_Ret|]. destruct (b <? a).
    - apply sim_Rd; auto. intros k3 p Hk3 Hp. destruct (p =? a); [|apply IH; auto; lia].
      apply sim_Cas; auto. intros k4 [|] Hk4; [apply any_Ret|apply IH; auto; lia].
    - apply sim_Rd; auto. intros k3 p Hk3 Hp. destruct (p =? b); [|apply IH; auto; lia].
      apply sim_Cas; auto. intros k4 [|] Hk4; [apply any_Ret|apply IH; auto; lia].
  Qed.
  Lemma unite_impl_sim f : forall k u u' v v', srel u u' -> srel v v' ->
    sim k (unite_impl f u v) (unite_impl f u' v') any.
  Proof.
    induction k as [k IH] using lt_wf_ind. intros u u' v v' Hu Hv.
    rewrite (frob_eq (unite_impl f u v)), (frob_eq (unite_impl f u' v')); simpl.
    rewrite (srel_eqb Hu Hv). destruct (u =? v); [apply any_Ret|].
    eapply sim_Bind. { intros. apply find_sim; eauto. } intros k1 a a' Hk1 [-> Ha].
    eapply sim_Bind. { intros. apply find_sim; eauto. } intros k2 b b' Hk2 [-> Hb].
    destruct (b <? a); [|destruct (a <? b); [|apply IH; auto; lia]].
    - apply sim_Rd; auto. intros k3 p Hk3 Hp. destruct (p =? a); [|apply IH; auto; lia].
      apply sim_Cas; auto. intros k4 [|] Hk4; [apply any_Ret|apply IH; auto; lia].
    - apply sim_Rd; auto. intros k3 p Hk3 Hp. destruct (p =? b); [|apply IH; auto; lia].
      apply sim_Cas; auto. intros k4 [|] Hk4; [apply any_Ret|apply IH; auto; lia].
  Qed.
  Lemma rem_cas_sim f s x x' y y' : srel x x' -> srel y y' -> forall k u u' v v', srel u u' -> srel v v' ->
    sim k (rem_cas_loop mx f s x y u v) (rem_cas_loop mx f s x' y' u' v') any.
  Proof.
    intros Hx Hy. induction k as [k IH] using lt_wf_ind. intros u u' v v' Hu Hv.
    rewrite (frob_eq (rem_cas_loop mx f s x y u v)), (frob_eq (rem_cas_loop mx f s x' y' u' v')); simpl.
    apply sim_Rd; auto. intros k1 a Hk1 Ha. apply sim_Rd; auto. intros k2 b Hk2 Hb.
    destruct (a =? b); [apply any_Ret|].
    apply sim_Rd; auto. intros k3 pv Hk3 Hpv. apply sim_Rd; auto. intros k4 pu Hk4 Hpu.
    set (c := pu <? pv). assert (H1 : srel (if c then v else u) (if c then v' else u')) by (destruct c; auto).
    assert (H2 : srel (if c then u else v) (if c then u' else v')) by (destruct c; auto).
    assert (H3 : cv (if c then pu else pv)) by (destruct c; auto).
    set (ru := if c then v else u) in *. set (ru' := if c then v' else u') in *.
    set (rv := if c then u else v) in *. set (rv' := if c then u' else v') in *.
    set (w := if c then pu else pv) in *. clearbody ru ru' rv rv' w.
    assert (Hagain : forall k', k' < k -> sim k' (Bind (splice s ru rv) (fun z => rem_cas_loop mx f s x y z rv))
                                          (Bind (splice s ru' rv') (fun z => rem_cas_loop mx f s x' y' z rv')) any).
    { intros k' Hk'. eapply sim_Bind. { intros. apply splice_sim; eauto. } intros k6 z z' Hk6 [-> Hz]. apply IH; auto; lia. }
    apply sim_Rd; auto. intros k5 q Hk5 Hq. rewrite (eqb_cv H1 Hq). destruct (Nat.eqb_spec ru q) as [E|E]; [|apply Hagain; lia].
    destruct (eq_fr H1 Hq E) as [-> Hc]. apply sim_Cas; auto.
    intros k6 [|] Hk6; [now apply compress_both_sim|apply Hagain; lia].
  Qed.
  Lemma rem_lock_sim f s x x' y y' : srel x x' -> srel y y' -> forall k u u' v v', srel u u' -> srel v v' ->
    sim k (rem_lock_loop mx f s x y u v) (rem_lock_loop mx f s x' y' u' v') any.
  Proof.
    intros Hx Hy. induction k as [k IH] using lt_wf_ind. intros u u' v v' Hu Hv.
    rewrite (frob_eq (rem_lock_loop mx f s x y u v)), (frob_eq (rem_lock_loop mx f s x' y' u' v')); simpl.
    apply sim_Rd; auto. intros k1 a Hk1 Ha. apply sim_Rd; auto. intros k2 b Hk2 Hb.
    destruct (a =? b); [now apply compress_both_sim|].
    apply sim_Rd; auto. intros k3 pu Hk3 Hpu. apply sim_Rd; auto. intros k4 pv Hk4 Hpv.
    set (c := pu <? pv). assert (H1 : srel (if c then v else u) (if c then v' else u')) by (destruct c; auto).
    assert (H2 : srel (if c then u else v) (if c then u' else v')) by (destruct c; auto).
    set (ru := if c then v else u) in *. set (ru' := if c then v' else u') in *.
    set (rv := if c then u else v) in *. set (rv' := if c then u' else v') in *. clearbody ru ru' rv rv'.
    apply sim_Rd; auto. intros k5 q Hk5 Hq. rewrite (eqb_cv H1 Hq). destruct (Nat.eqb_spec ru q) as [E|E].
    - destruct (eq_fr H1 Hq E) as [-> Hc]. apply sim_RdL; auto. intros k6 [|] Hk6; [apply IH; auto; lia|].
      apply sim_CasL; auto. intros k7 [|] Hk7; [|apply IH; auto; lia].
      apply sim_Rd; auto. intros k8 py Hk8 Hpy. apply sim_Rd; auto. intros k9 p Hk9 Hp.
      destruct ((ru =? p) && (py <? ru)).
      + apply sim_Wr; auto. intros k10 Hk10. apply sim_ClrL; auto. intros k11 Hk11. apply IH; auto; lia.
      + apply sim_ClrL; auto. intros k11 Hk11. apply IH; auto; lia.
    - eapply sim_Bind. { intros. apply splice_sim; eauto. } intros k6 z z' Hk6 [-> Hz]. apply IH; auto; lia.
  Qed.
  Lemma nd_sim f : forall k u u' v v', srel u u' -> srel v v' -> sim k (nd_loop mx f u v) (nd_loop mx f u' v') any.
  Proof.
    induction k as [k IH] using lt_wf_ind. intros u u' v v' Hu Hv.
    rewrite (frob_eq (nd_loop mx f u v)), (frob_eq (nd_loop mx f u' v')); simpl.
    eapply sim_Bind. { intros. apply find_sim; eauto. } intros k1 a a' Hk1 [-> Ha].
    eapply sim_Bind. { intros. apply find_sim; eauto. } intros k2 b b' Hk2 [-> Hb].
    destruct (a =? b); [apply any_Ret|].
    assert (H1 : cv (if a <? b then b else a)) by (destruct (a <? b); auto).
    assert (H2 : cv (if a <? b then a else b)) by (destruct (a <? b); auto).
    set (h := if a <? b then b else a) in *. set (l := if a <? b then a else b) in *. clearbody h l.
    apply sim_RdL; auto. intros k3 [|] Hk3; [apply IH; auto; lia|].
    apply sim_CasL; auto. intros k4 [|] Hk4; [|apply IH; auto; lia].
    apply sim_Wr; auto. intros k5 Hk5. apply any_Ret.
  Qed.
  Lemma link_loop_sim : forall k p1 p2, cv p1 -> cv p2 -> sim k (link_loop p1 p2) (link_loop p1 p2) any.
  Proof.
    induction k as [k IH] using lt_wf_ind. intros p1 p2 H1 H2.
    rewrite (frob_eq (link_loop p1 p2)); simpl. destruct (p1 =? p2); [apply any_Ret|].
    assert (Hh : cv (if p2 <? p1 then p1 else p2)) by (destruct (p2 <? p1); auto).
    assert (Hl : cv (p1 + p2 - (if p2 <? p1 then p1 else p2))).
    { destruct (p2 <? p1); [replace (p1 + p2 - p1) with p2 by lia|replace (p1 + p2 - p2) with p1 by lia]; auto. }
    set (h := if p2 <? p1 then p1 else p2) in *. set (l := p1 + p2 - h) in *. clearbody h l.
    assert (Hag : forall k', k' < k -> sim k' (Rd h (fun ph => Rd ph (fun q1 => Rd l (fun q2 => link_loop q1 q2))))
                                       (Rd h (fun ph => Rd ph (fun q1 => Rd l (fun q2 => link_loop q1 q2)))) any).
    { intros k' Hk'. apply sim_Rd; auto. intros k1 a Hk1 Ha. apply sim_Rd; auto. intros k2 b Hk2 Hb.
      apply sim_Rd; auto. intros k3 c Hk3 Hc. apply IH; auto; lia. }
    apply sim_Rd; auto. intros k1 p Hk1 Hp. destruct (p =? l); [apply any_Ret|]. destruct (p =? h); [|apply Hag; lia].
    apply sim_Cas; auto. intros k2 [|] Hk2; [apply any_Ret|apply Hag; lia].
  Qed.

  Lemma unite_sim f o k u u' v v' : o <> UEarly -> srel u u' -> srel v v' ->
    sim k (unite mx f o u v) (unite mx f o u' v') any.
  Proof.
    intros Ho Hu Hv. destruct o as [| | | | |s|s]; simpl.
    - now apply unite_loop_sim.
    - congruence.
    - now apply nd_sim.
    - now apply unite_impl_sim.
    - unfold link. apply sim_Rd; auto. intros k1 a Hk1 Ha. apply sim_Rd; auto. intros k2 b Hk2 Hb. now apply link_loop_sim.
    - now apply rem_cas_sim.
    - now apply rem_lock_sim.
  Qed.
  Lemma label_sim f k i i' : srel i i' -> sim k (label_vertex f i) (label_vertex f i') any.
  Proof.
    intros Hi. unfold label_vertex. eapply sim_Bind. { intros. apply find_sim; eauto. }
    intros k1 r r' Hk1 [-> Hr]. apply sim_Wr; auto. intros k2 Hk2. apply any_Ret.
  Qed.

  (* -- runs --------------------------------------------------------------------------- *)
  Fixpoint sim_thread (k : nat) (st st' : list (nat -> prog)) (p p' : prog) : Prop :=
    match st, st' with
    | [], [] => sim k p p' any
    | c :: st, c' :: st' => sim k p p' (fun r r' => sim_thread k st st' (c r) (c' r'))
    | _, _ => False
    end.
  Lemma sim_thread_index k k' : k' <= k -> forall st st' p p', sim_thread k st st' p p' -> sim_thread k' st st' p p'.
  Proof.
    intros Hk. induction st as [|c st IH]; intros [|c' st'] p p'; simpl; auto.
    - now apply sim_index.
    - apply sim_mono; auto.
  Qed.

  Definition msim (m m' : mem) : Prop :=
    forall x, x < n -> par m' (sig x) = par m x /\ cv (par m x) /\ aux m' (sig x) = aux m x.

  Lemma msim_par m m' a v : msim m m' -> a < n -> cv v -> msim (set_par m a v) (set_par m' (sig a) v).
  Proof.
    intros H Ha Hv x Hx. destruct (H x Hx) as (H1 & H2 & H3). simpl. destruct (Nat.eq_dec x a) as [->|Hne].
    - now rewrite !fset_same.
    - rewrite !fset_other; auto. intros E. apply Hne. symmetry. apply sig_inj; auto.
  Qed.
  Lemma msim_aux m m' a o : msim m m' -> a < n -> msim (set_aux m a o) (set_aux m' (sig a) o).
  Proof.
    intros H Ha x Hx. destruct (H x Hx) as (H1 & H2 & H3). simpl. destruct (Nat.eq_dec x a) as [->|Hne].
    - now rewrite !fset_same.
    - rewrite !fset_other; auto. intros E. apply Hne. symmetry. apply sig_inj; auto.
  Qed.

  Lemma sim_tstep k t m m' st st' p p' : msim m m' -> sim_thread (S k) st st' p p' ->
    let '(m1, (p1, st1)) := tstep n t m (p, st) in
    let '(m1', (p1', st1')) := tstep (n + n) t m' (p', st') in
    msim m1 m1' /\ sim_thread k st1 st1' p1 p1'.
  Proof.
    intros Hm H.
    assert (Hst : exists S1 : res, sim (S k) p p' S1 /\
      (forall k' q q', k' <= k -> sim k' q q' S1 -> sim_thread k' st st' q q') /\
      (forall r r', S1 r r' -> match st, st' with [], [] => True | c :: st, c' :: st' => sim_thread k st st' (c r) (c' r') | _, _ => False end)).
    { destruct st as [|c st], st' as [|c' st']; simpl in H; try (now destruct H).
      - exists any. repeat split; auto.
      - eexists. split; [exact H|]. split.
        + intros k' q q' Hk Hq. simpl. eapply sim_mono; [reflexivity| |exact Hq]. intros r r' Hr. cbn beta in *. eapply sim_thread_index; [|exact Hr]. lia.
        + intros r r' Hr. cbn beta in *. eapply sim_thread_index; [|exact Hr]. lia. }
    destruct Hst as (S1 & H1 & Hback & Hret). clear H. simpl in H1.
    assert (B : forall a a', srel a a' -> (a <? n) = true /\ (a' <? n + n) = true).
    { intros a a' [Ha ->]. split; apply Nat.ltb_lt; auto. now apply sig_lt. }
    destruct p as [r|a c|a v c|a o w c|a c|a c|a c|q c|], p' as [r'|a' c'|a' v' c'|a' o' w' c'|a' c'|a' c'|a' c'|q' c'|];
      simpl in H1; try (now destruct H1); simpl.
    - specialize (Hret _ _ H1). destruct st as [|c st], st' as [|c' st']; try (now destruct Hret); split; auto.
      simpl. apply any_Ret.
    - destruct H1 as [Ha H1]. destruct (B _ _ Ha) as [-> ->]. destruct Ha as [Ha ->]. destruct (Hm a Ha) as (E1 & E2 & E3).
      rewrite E1. split; auto.
    - destruct H1 as (Ha & -> & Hv & H1). destruct (B _ _ Ha) as [-> ->]. destruct Ha as [Ha ->]. split; auto. now apply msim_par.
    - destruct H1 as (Ha & -> & -> & Hw & H1). destruct (B _ _ Ha) as [-> ->]. destruct Ha as [Ha ->]. destruct (Hm a Ha) as (E1 & E2 & E3).
      rewrite E1. destruct (par m a =? o); split; auto. now apply msim_par.
    - destruct H1 as [Ha H1]. destruct (B _ _ Ha) as [-> ->]. destruct Ha as [Ha ->]. destruct (Hm a Ha) as (E1 & E2 & E3).
      rewrite E3. split; auto.
    - destruct H1 as [Ha H1]. destruct (B _ _ Ha) as [-> ->]. destruct Ha as [Ha ->]. destruct (Hm a Ha) as (E1 & E2 & E3).
      rewrite E3. destruct (aux m a); split; auto. now apply msim_aux.
    - destruct H1 as [Ha H1]. destruct (B _ _ Ha) as [-> ->]. destruct Ha as [Ha ->]. split; auto. now apply msim_aux.
    - split; auto. eapply sim_mono; [reflexivity| |exact H1]. intros r r' Hr. cbn beta in *. apply Hback; auto.
  Qed.

  Definition ssim (k : nat) (s s' : sys) : Prop :=
    msim (fst s) (fst s') /\ length (snd s) = length (snd s') /\
    forall t p st p' st', nth_error (snd s) t = Some (p, st) -> nth_error (snd s') t = Some (p', st') -> sim_thread k st st' p p'.

  Lemma ssim_step k s s' t : ssim (S k) s s' -> ssim k (sys_step n s t) (sys_step (n + n) s' t).
  Proof.
    intros (Hm & Hl & Hs). unfold sys_step.
    destruct (nth_error (snd s) t) as [[p st]|] eqn:E.
    - assert (Hlt : t < length (snd s)) by (apply nth_error_Some; congruence).
      destruct (nth_error (snd s') t) as [[p' st']|] eqn:E'; [|apply nth_error_None in E'; lia].
      pose proof (sim_tstep t Hm (Hs _ _ _ _ _ E E')) as H.
      destruct (tstep n t (fst s) (p, st)) as [m1 [p1 st1]], (tstep (n + n) t (fst s') (p', st')) as [m1' [p1' st1']].
      destruct H as [H1 H2]. split; [exact H1|]. cbn [fst snd]. split; [rewrite !length_lset; auto|].
      intros t2 q sq q' sq' F F'. destruct (Nat.eq_dec t t2) as [<-|Hne].
      + rewrite nth_error_lset_same in F by lia. rewrite nth_error_lset_same in F' by lia.
        injection F as <- <-. injection F' as <- <-. exact H2.
      + rewrite nth_error_lset_other in F by auto. rewrite nth_error_lset_other in F' by auto.
        eapply sim_thread_index; [|eapply Hs; eauto]. lia.
    - assert (E' : nth_error (snd s') t = None) by (apply nth_error_None; apply nth_error_None in E; lia). rewrite E'.
      split; [auto|split; auto]. intros t2 q sq q' sq' F F'. eapply sim_thread_index; [|eapply Hs; eauto]. lia.
  Qed.
  Lemma ssim_exec sched : forall k s s', ssim (length sched + k) s s' -> ssim k (exec n sched s) (exec (n + n) sched s').
  Proof.
    induction sched as [|t sched IH]; intros k s s' H; simpl in *; auto. apply IH. now apply ssim_step.
  Qed.

  Lemma ssim_returned s s' t : ssim 1 s s' -> (exists r, returned s t r) <-> (exists r, returned s' t r).
  Proof.
    intros (Hm & Hl & Hs). unfold returned. split.
    - intros [r E]. assert (Hlt : t < length (snd s)) by (apply nth_error_Some; congruence).
      destruct (nth_error (snd s') t) as [[p' st']|] eqn:E'; [|apply nth_error_None in E'; lia].
      specialize (Hs _ _ _ _ _ E E'). destruct st' as [|c' st']; simpl in Hs; [|destruct Hs].
      destruct p'; try (now destruct Hs). eauto.
    - intros [r' E']. assert (Hlt : t < length (snd s')) by (apply nth_error_Some; congruence).
      destruct (nth_error (snd s) t) as [[p st]|] eqn:E; [|apply nth_error_None in E; lia].
      specialize (Hs _ _ _ _ _ E E'). destruct st as [|c st]; simpl in Hs; [|destruct Hs].
      destruct p; try (now destruct Hs). eauto.
  Qed.
  Lemma ssim_nofault s s' t : ssim 1 s s' -> ~ faulted s t.
  Proof.
    intros (Hm & Hl & Hs) [st E]. assert (Hlt : t < length (snd s)) by (apply nth_error_Some; congruence).
    destruct (nth_error (snd s') t) as [[p' st']|] eqn:E'; [|apply nth_error_None in E'; lia].
    specialize (Hs _ _ _ _ _ E E'). destruct st as [|c st], st' as [|c' st']; simpl in Hs; auto.
  Qed.

  (* the start of a phase *)
  Lemma ssim_init P P' (ps ps' : list prog) : (forall x, x < n -> P' (sig x) = P x /\ cv (P x)) ->
    Forall2 (fun p p' => forall k, sim k p p' any) ps ps' -> forall k, ssim k (init P ps) (init P' ps').
  Proof.
    intros HP HF k. split; [|split].
    - intros x Hx. simpl. destruct (HP x Hx). auto.
    - simpl. rewrite !map_length. clear HP. induction HF; simpl; auto.
    - simpl. intros t p st p' st' E E'. rewrite nth_error_map in E, E'.
      destruct (nth_error ps t) as [q|] eqn:F; [|discriminate]. destruct (nth_error ps' t) as [q'|] eqn:F'; [|discriminate].
      simpl in E, E'. injection E as <- <-. injection E' as <- <-. simpl.
      clear HP. revert t F F'. induction HF as [|a a' l l' Ha HF IH]; intros [|t] F F'; simpl in *; try discriminate.
      + injection F as <-. injection F' as <-. auto.
      + eauto.
  Qed.
End Sim.
