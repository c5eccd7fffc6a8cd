(* Rely-guarantee reasoning for the union-find programs. *)
From Verif Require Import Base UFSpec UFRoots UFModel.
From Coq Require Import Relations.

(* which writes the running threads may perform *)
Inductive mode := Free    (* hooks by CAS on a root *)
                | Locked  (* hooks only while holding the lock of the root *)
                | Hooked  (* hooks only by the thread that won hooks[] of the root *)
                | Label.  (* no hooks (final find pass) *)

Section Logic.
  Variable n : nat.                       (* parents.size() *)
  Variable C : nat -> nat -> Prop.        (* the intended connectivity *)
  Hypothesis Crefl : forall x, C x x.
  Hypothesis Csym : forall x y, C x y -> C y x.
  Hypothesis Ctrans : forall x y z, C x y -> C y z -> C x z.
  Variable md : mode.

  Definition Inv (m : mem) : Prop := down (par m) /\ forall x, C x (par m x).

  Notation rt m x := (root (par m) x).

  (* one step of thread t *)
  Inductive guar (t : nat) (m m' : mem) : Prop :=
  | g_same : (forall x, par m' x = par m x) -> (forall x, aux m' x = aux m x) -> guar t m m'
  | g_hook r v : md <> Label -> par m r = r -> v < r -> C r v ->
      (md = Locked \/ md = Hooked -> aux m r = Some t) ->
      upd1 (par m) (par m') r v -> (forall x, aux m' x = aux m x) -> guar t m m'
  | g_compress i j : j < i -> rt m j = rt m i ->
      (md = Label -> par m i = rt m i -> j = rt m i) ->
      upd1 (par m) (par m') i j -> (forall x, aux m' x = aux m x) -> guar t m m'
  | g_acq a : (forall x, par m' x = par m x) -> aux m a = None -> aux m' a = Some t ->
      (forall x, x <> a -> aux m' x = aux m x) -> guar t m m'
  | g_rel a : md = Locked -> (forall x, par m' x = par m x) -> aux m a = Some t -> aux m' a = None ->
      (forall x, x <> a -> aux m' x = aux m x) -> guar t m m'.

  Definition env1 (t : nat) (m m' : mem) : Prop := exists t', t' <> t /\ Inv m /\ guar t' m m'.
  Definition rely (t : nat) : mem -> mem -> Prop := clos_refl_trans mem (env1 t).

  Lemma rely_refl t m : rely t m m.
  Proof. apply rt_refl. Qed.
  Lemma rely_trans t a b c : rely t a b -> rely t b c -> rely t a c.
  Proof. intros; eapply rt_trans; eauto. Qed.

  Lemma down_ext P P' : (forall x, P' x = P x) -> down P -> down P'.
  Proof. intros E H x. rewrite E. apply H. Qed.
  Lemma iter_ext (P P' : nat -> nat) k x : (forall x, P' x = P x) -> Nat.iter k P' x = Nat.iter k P x.
  Proof. intros E. induction k as [|k IH]; simpl; auto. rewrite E. now f_equal. Qed.
  Lemma root_ext P P' x : (forall x, P' x = P x) -> root P' x = root P x.
  Proof. intros E. unfold root. now apply iter_ext. Qed.

  Lemma C_root m x : Inv m -> C x (rt m x).
  Proof. intros [_ H]. apply rel_root; auto. Qed.

  Lemma guar_inv t m m' : Inv m -> guar t m m' -> Inv m'.
  Proof.
    intros Hi Hg. pose proof Hi as [Hd Hc]. destruct Hg.
    - split. eapply down_ext; eauto. intros x. rewrite H. auto.
    - split. eapply upd1_down; eauto; lia.
      destruct H4 as [H4 H6]. intros x. destruct (Nat.eq_dec x r) as [->|Hx].
      + rewrite H4. auto.
      + rewrite H6; auto.
    - split. eapply upd1_down; eauto; lia.
      destruct H2 as [H2 H4]. intros x. destruct (Nat.eq_dec x i) as [->|Hx].
      + rewrite H2. eapply Ctrans; [apply C_root; eauto|]. rewrite <- H0.
        apply Csym, C_root; auto.
      + rewrite H4; auto.
    - split. eapply down_ext; eauto. intros x. rewrite H. auto.
    - split. eapply down_ext; eauto. intros x. rewrite H0. auto.
  Qed.

  (* how roots change in one step *)
  Lemma guar_root t m m' : Inv m -> guar t m m' ->
    (forall x, rt m' x = rt m x) \/
    exists r v, md <> Label /\ v < r /\ par m r = r /\
      forall x, rt m' x = if rt m x =? r then rt m v else rt m x.
  Proof.
    intros [Hd Hc] Hg. destruct Hg.
    - left. intros x. now apply root_ext.
    - right. exists r, v. repeat split; auto. eapply root_hook; eauto.
    - left. eapply root_compress; eauto.
    - left. intros x. now apply root_ext.
    - left. intros x. now apply root_ext.
  Qed.

  (* stable facts *)
  Definition eqv (m : mem) (x y : nat) : Prop := rt m x = rt m y.

  Lemma guar_eqv t m m' x y : Inv m -> guar t m m' -> eqv m x y -> eqv m' x y.
  Proof.
    intros Hi Hg E. unfold eqv in *. destruct (guar_root Hi Hg) as [H|(r & v & _ & _ & _ & H)].
    - now rewrite !H.
    - now rewrite !H, E.
  Qed.

  Definition nonroot (m : mem) (x : nat) : Prop := par m x <> x.

  Lemma guar_nonroot t m m' x : Inv m -> guar t m m' -> nonroot m x -> nonroot m' x.
  Proof.
    unfold nonroot. intros Hi Hg Hn. pose proof Hi as [Hd Hc]. destruct Hg.
    - now rewrite H.
    - destruct H4 as [H4 H6]. destruct (Nat.eq_dec x r) as [->|Hx]; [congruence|]. rewrite H6; auto.
    - destruct H2 as [H2 H4]. destruct (Nat.eq_dec x i) as [->|Hx]; [lia|]. rewrite H4; auto.
    - now rewrite H.
    - now rewrite H0.
  Qed.

  Lemma guar_root_le t m m' x : Inv m -> guar t m m' -> rt m' x <= rt m x.
  Proof.
    intros Hi Hg. destruct (guar_root Hi Hg) as [H|(r & v & _ & Hv & _ & H)]; rewrite H; auto.
    destruct (Nat.eqb_spec (rt m x) r); auto.
    pose proof (root_le v (proj1 Hi)). lia.
  Qed.

  (* fact used by UniteND: if hooks[x] is still clear, x is still a root *)
  Definition rootish (m : mem) (x : nat) : Prop :=
    (md = Hooked -> aux m x = None -> par m x = x) /\
    (md = Label -> par m x = x).

  Lemma guar_rootish t m m' x : Inv m -> guar t m m' -> rootish m x -> rootish m' x.
  Proof.
    intros Hi Hg [H1 H2]. unfold rootish. destruct Hg as [Hp Ha|r v Hm Hr Hv HC Hl [Hu Hu'] Ha|i j Hj Hr Hl [Hu Hu'] Ha|a Hp Ha Ha' Hau|a Hm Hp Ha Ha' Hau].
    - split; intros; rewrite ?Hp, ?Ha in *; auto.
    - split.
      + intros Em En. rewrite Ha in En. specialize (H1 Em En).
        destruct (Nat.eq_dec x r) as [->|Hx]; [|rewrite Hu'; auto].
        rewrite Hl in En by auto. discriminate.
      + intros; congruence.
    - assert (Hroot : par m x = x -> par m' x = x).
      { intros E. destruct (Nat.eq_dec x i) as [->|Hx]; [|rewrite Hu'; auto].
        exfalso. rewrite (root_self (par m) E) in Hr. pose proof (root_le j (proj1 Hi)). lia. }
      split.
      + intros Em En. rewrite Ha in En. auto.
      + auto.
    - split; intros; rewrite ?Hp; auto.
      apply H1; auto. destruct (Nat.eq_dec x a) as [->|Hx]; [congruence|]. rewrite <- Hau; auto.
    - split; intros; congruence.
  Qed.

  (* fact used in critical sections / after winning a hook *)
  Lemma env_owned t m m' x : env1 t m m' ->
    md = Locked \/ md = Hooked -> aux m x = Some t -> par m x = x ->
    aux m' x = Some t /\ par m' x = x.
  Proof.
    intros (t' & Hne & Hi & Hg) Hm Hx Hp.
    destruct Hg as [Hp' Ha|r v Hml Hr Hv HC Hl [Hu Hu'] Ha|i j Hj Hr Hl [Hu Hu'] Ha|a Hp' Ha Ha' Hau|a Hml Hp' Ha Ha' Hau].
    - rewrite Hp', Ha. auto.
    - rewrite Ha. split; auto. destruct (Nat.eq_dec x r) as [->|Hxr]; [|rewrite Hu'; auto].
      specialize (Hl Hm). congruence.
    - rewrite Ha. split; auto. destruct (Nat.eq_dec x i) as [->|Hx']; [|rewrite Hu'; auto].
      exfalso. rewrite (root_self (par m) Hp) in Hr. pose proof (root_le j (proj1 Hi)). lia.
    - rewrite Hp'. split; auto. destruct (Nat.eq_dec x a) as [->|Hx']; [congruence|]. rewrite Hau; auto.
    - rewrite Hp'. split; auto. destruct (Nat.eq_dec x a) as [->|Hx']; [congruence|]. rewrite Hau; auto.
  Qed.

  Lemma env_lock t m m' x : env1 t m m' -> aux m x = Some t -> aux m' x = Some t.
  Proof.
    intros (t' & Hne & Hi & Hg) Hx.
    destruct Hg as [Hp' Ha|r v Hml Hr Hv HC Hl [Hu Hu'] Ha|i j Hj Hr Hl [Hu Hu'] Ha|a Hp' Ha Ha' Hau|a Hml Hp' Ha Ha' Hau].
    - rewrite Ha. auto.
    - rewrite Ha. auto.
    - rewrite Ha. auto.
    - destruct (Nat.eq_dec x a) as [->|Hx']; [congruence|]. rewrite Hau; auto.
    - destruct (Nat.eq_dec x a) as [->|Hx']; [congruence|]. rewrite Hau; auto.
  Qed.

  (* in the final pass: an entry that points to its root keeps doing so *)
  Lemma guar_flat t m m' x : md = Label -> Inv m -> guar t m m' ->
    par m x = rt m x -> par m' x = rt m' x.
  Proof.
    intros Em Hi Hg Hf. pose proof (guar_root Hi Hg) as [H|(r & v & Hl & _)]; [|congruence].
    rewrite H. destruct Hg as [Hp' Ha|r v Hml Hr Hv HC Hl [Hu Hu'] Ha|i j Hj Hr Hl [Hu Hu'] Ha|a Hp' Ha Ha' Hau|a Hml Hp' Ha Ha' Hau].
    - now rewrite Hp'.
    - congruence.
    - destruct (Nat.eq_dec x i) as [->|Hx]; [|rewrite Hu'; auto].
      rewrite Hu. auto.
    - now rewrite Hp'.
    - congruence.
  Qed.

  Section Stable.
    Variable S : mem -> Prop.
    Definition stable (t : nat) : Prop := forall m m', Inv m -> S m -> rely t m m' -> S m'.
    Lemma stable_intro t : (forall m m', Inv m -> S m -> env1 t m m' -> S m') -> stable t.
    Proof.
      intros H m m' Hi Hs Hr.
      assert (Inv m' /\ S m'); [|tauto]. clear - H Hi Hs Hr Ctrans Crefl Csym.
      induction Hr as [m m' He|m|m1 m2 m3 H1 IH1 H2 IH2].
      - split; [|eauto]. destruct He as (t' & _ & _ & Hg). eapply guar_inv; eauto.
      - auto.
      - destruct IH1; auto.
    Qed.
    Lemma stable_guar t : (forall t' m m', Inv m -> guar t' m m' -> S m -> S m') -> stable t.
    Proof.
      intros H. apply stable_intro. intros m m' Hi Hs (t' & _ & _ & Hg). eauto.
    Qed.
  End Stable.

  Lemma rely_inv t m m' : Inv m -> rely t m m' -> Inv m'.
  Proof.
    intros Hi Hr. refine (@stable_guar (fun m => Inv m) t _ m m' Hi Hi Hr).
    intros. eapply guar_inv; eauto.
  Qed.

  Lemma rely_eqv t m m' x y : Inv m -> rely t m m' -> eqv m x y -> eqv m' x y.
  Proof.
    intros Hi Hr E. refine (@stable_guar (fun m => eqv m x y) t _ m m' Hi E Hr).
    intros. eapply guar_eqv; eauto.
  Qed.
  Lemma rely_nonroot t m m' x : Inv m -> rely t m m' -> nonroot m x -> nonroot m' x.
  Proof.
    intros Hi Hr E. refine (@stable_guar (fun m => nonroot m x) t _ m m' Hi E Hr).
    intros. eapply guar_nonroot; eauto.
  Qed.
  Lemma rely_rootish t m m' x : Inv m -> rely t m m' -> rootish m x -> rootish m' x.
  Proof.
    intros Hi Hr E. refine (@stable_guar (fun m => rootish m x) t _ m m' Hi E Hr).
    intros. eapply guar_rootish; eauto.
  Qed.
  Lemma rely_root_le t m m' x : Inv m -> rely t m m' -> rt m' x <= rt m x.
  Proof.
    intros Hi Hr. refine (@stable_guar (fun m' => rt m' x <= rt m x) t _ m m' Hi _ Hr); auto.
    intros t' m1 m2 Hi1 Hg Hle. pose proof (guar_root_le x Hi1 Hg). lia.
  Qed.
  Lemma rely_owned t m m' x : Inv m -> rely t m m' -> md = Locked \/ md = Hooked ->
    aux m x = Some t /\ par m x = x -> aux m' x = Some t /\ par m' x = x.
  Proof.
    intros Hi Hr Hm E. refine (@stable_intro (fun m => aux m x = Some t /\ par m x = x) t _ m m' Hi E Hr).
    intros m1 m2 Hi1 [E1 E2] He. eapply env_owned; eauto.
  Qed.
  Lemma rely_lock t m m' x : Inv m -> rely t m m' -> aux m x = Some t -> aux m' x = Some t.
  Proof.
    intros Hi Hr E. refine (@stable_intro (fun m => aux m x = Some t) t _ m m' Hi E Hr).
    intros m1 m2 Hi1 E1 He. eapply env_lock; eauto.
  Qed.
  Lemma rely_flat t m m' x : md = Label -> Inv m -> rely t m m' -> par m x = rt m x -> par m' x = rt m' x.
  Proof.
    intros Em Hi Hr E. refine (@stable_guar (fun m => par m x = rt m x) t _ m m' Hi E Hr).
    intros. eapply guar_flat; eauto.
  Qed.

  (* ---------------------------------------------------------------- *)
  (* safe k t p m Q: for the next k steps, p run by t from m (with any
     interference) stays within bounds, guarantees [guar t], and when it returns
     r in memory m', Q m' r holds. *)
  Definition post := mem -> nat -> Prop.

  Fixpoint safe (k t : nat) (p : prog) (m : mem) (Q : post) : Prop :=
    match k with
    | 0 => True
    | S k =>
        forall m1, rely t m m1 -> Inv m1 ->
        match p with
        | Ret r => Q m1 r
        | Rd a c => a < n /\ safe k t (c (par m1 a)) m1 Q
        | Wr a v c => a < n /\ guar t m1 (set_par m1 a v) /\ safe k t c (set_par m1 a v) Q
        | Cas a old new c =>
            a < n /\
            (par m1 a = old -> guar t m1 (set_par m1 a new) /\ safe k t (c true) (set_par m1 a new) Q) /\
            (par m1 a <> old -> safe k t (c false) m1 Q)
        | RdL a c => a < n /\ safe k t (c (match aux m1 a with None => false | _ => true end)) m1 Q
        | CasL a c =>
            a < n /\
            (aux m1 a = None -> guar t m1 (set_aux m1 a (Some t)) /\
                                safe k t (c true) (set_aux m1 a (Some t)) Q) /\
            (aux m1 a <> None -> safe k t (c false) m1 Q)
        | ClrL a c => a < n /\ guar t m1 (set_aux m1 a None) /\ safe k t c (set_aux m1 a None) Q
        | Bind q c => safe k t q m1 (fun m2 r => safe k t (c r) m2 Q)
        | Fault => False
        end
    end.

  Lemma safe_rely k t p m m' Q : rely t m m' -> safe k t p m Q -> safe k t p m' Q.
  Proof.
    destruct k as [|k]; simpl; auto. intros Hr H m1 Hr1. apply H. eapply rely_trans; eauto.
  Qed.

  (* weakening of the index and the postcondition *)
  Lemma safe_mono k : forall k' t p m (Q Q' : post), k' <= k ->
    (forall m' r, Inv m' -> Q m' r -> Q' m' r) -> safe k t p m Q -> safe k' t p m Q'.
  Proof.
    induction k as [|k IH]; intros k' t p m Q Q' Hk HQ H.
    - assert (k' = 0) as -> by lia. exact I.
    - destruct k' as [|k']; [exact I|]. simpl in *. intros m1 Hr Hi. specialize (H m1 Hr Hi).
      assert (Hk' : k' <= k) by lia.
      destruct p; auto.
      + destruct H as [H1 H2]. split; auto. eapply IH; eauto.
      + destruct H as (H1 & H2 & H3). repeat split; auto. eapply IH; eauto.
      + destruct H as (H1 & H2 & H3). split; auto. split.
        * intros E. destruct (H2 E) as [H4 H5]. split; auto. eapply IH; eauto.
        * intros E. eapply IH; eauto.
      + destruct H as [H1 H2]. split; auto. eapply IH; eauto.
      + destruct H as (H1 & H2 & H3). split; auto. split.
        * intros E. destruct (H2 E) as [H4 H5]. split; auto. eapply IH; eauto.
        * intros E. eapply IH; eauto.
      + destruct H as (H1 & H2 & H3). repeat split; auto. eapply IH; eauto.
      + eapply IH; [exact Hk'| |exact H]. intros m' r Hi' H'. cbn beta in *. eapply IH; eauto.
  Qed.

  Lemma safe_index k k' t p m Q : k' <= k -> safe k t p m Q -> safe k' t p m Q.
  Proof. intros. eapply safe_mono; eauto. Qed.

  Lemma safe_post k t p m (Q Q' : post) :
    (forall m' r, Inv m' -> Q m' r -> Q' m' r) -> safe k t p m Q -> safe k t p m Q'.
  Proof. intros. eapply safe_mono; eauto. Qed.

  (* ---------------------------------------------------------------- *)
  (* threads with a call stack *)
  Fixpoint safe_thread (k t : nat) (st : list (nat -> prog)) (p : prog) (m : mem) (Q : post) : Prop :=
    match st with
    | [] => safe k t p m Q
    | c :: st' => safe k t p m (fun m1 r => safe_thread k t st' (c r) m1 Q)
    end.

  Lemma safe_thread_rely k t st p m m' Q : rely t m m' -> safe_thread k t st p m Q -> safe_thread k t st p m' Q.
  Proof. destruct st; simpl; apply safe_rely. Qed.

  Lemma safe_thread_index k k' t st : k' <= k -> forall p m Q, safe_thread k t st p m Q -> safe_thread k' t st p m Q.
  Proof.
    intros Hk. induction st as [|c st IH]; intros p m Q; simpl.
    - now apply safe_index.
    - apply safe_mono; auto.
  Qed.

  Lemma safe_thread_step k t st p m Q : Inv m -> safe_thread (S k) t st p m Q ->
    let '(m', (p', st')) := tstep n t m (p, st) in
    (guar t m m' /\ safe_thread k t st' p' m' Q).
  Proof.
    intros Hi H.
    assert (Hst : exists Q1 : post, safe (S k) t p m Q1 /\
        (forall m' r, Inv m' -> Q1 m' r -> match st with [] => Q m' r | c :: st' => safe_thread k t st' (c r) m' Q end)).
    { destruct st as [|c st']; simpl in H.
      - exists Q. auto.
      - eexists. split; [exact H|]. simpl. intros m' r Hi' H'.
        eapply safe_thread_index; [|exact H']. lia. }
    destruct Hst as (Q1 & H1 & HQ1).
    assert (Hback : forall k' p' m', k' <= k -> safe k' t p' m' Q1 -> safe_thread k' t st p' m' Q).
    { intros k' p' m' Hk' H'. destruct st as [|c st']; simpl.
      - eapply safe_post; [|exact H']. exact HQ1.
      - eapply safe_post; [|exact H']. intros m2 r Hi2 H2. apply HQ1 in H2; auto.
        eapply safe_thread_index; eauto. }
    assert (Hsame : guar t m m) by (apply g_same; auto).
    simpl in H1. specialize (H1 m (rely_refl t m) Hi).
    destruct p as [r|a c|a v c|a old new c|a c|a c|a c|q c|]; simpl.
    - destruct st as [|c st']; simpl.
      + split; auto. exact (safe_thread_index t [] (Nat.le_succ_diag_r k) _ _ _ H).
      + split; auto.
    - destruct H1 as [Ha H1]. rewrite (proj2 (Nat.ltb_lt a n) Ha). auto.
    - destruct H1 as (Ha & Hg & H1). rewrite (proj2 (Nat.ltb_lt a n) Ha). auto.
    - destruct H1 as (Ha & Ht & Hf). rewrite (proj2 (Nat.ltb_lt a n) Ha).
      destruct (Nat.eqb_spec (par m a) old) as [E|E].
      + destruct (Ht E). auto.
      + auto.
    - destruct H1 as [Ha H1]. rewrite (proj2 (Nat.ltb_lt a n) Ha). auto.
    - destruct H1 as (Ha & Ht & Hf). rewrite (proj2 (Nat.ltb_lt a n) Ha).
      destruct (aux m a) eqn:E.
      + split; auto. apply Hback; auto. apply Hf. discriminate.
      + destruct (Ht eq_refl). auto.
    - destruct H1 as (Ha & Hg & H1). rewrite (proj2 (Nat.ltb_lt a n) Ha). auto.
    - split; auto. eapply safe_post; [|exact H1]. intros m' r Hi' H'. cbn beta in *. apply Hback; auto.
    - destruct H1.
  Qed.

  (* ---------------------------------------------------------------- *)
  (* whole system *)
  Definition sys_safe (k : nat) (act : nat -> Prop) (s : sys) (Q : nat -> post) : Prop :=
    Inv (fst s) /\
    forall t p st, act t -> nth_error (snd s) t = Some (p, st) -> safe_thread k t st p (fst s) (Q t).

  Lemma sys_safe_step k (act : nat -> Prop) s Q t : act t -> sys_safe (S k) act s Q -> sys_safe k act (sys_step n s t) Q.
  Proof.
    intros Hact [Hi Hs]. unfold sys_step. destruct (nth_error (snd s) t) as [[p st]|] eqn:E.
    2:{ split; auto. intros t' p' st' Ha' E'. eapply safe_thread_index; [|eapply Hs; eauto]. lia. }
    destruct (tstep n t (fst s) (p, st)) as [m' [p' st']] eqn:Et.
    pose proof (@safe_thread_step _ _ _ _ _ _ Hi (Hs _ _ _ Hact E)) as Hst. rewrite Et in Hst.
    destruct Hst as [Hg Hsafe].
    assert (Hlt : t < length (snd s)) by (apply nth_error_Some; congruence).
    split; simpl.
    - eapply guar_inv; eauto.
    - intros t' q st2 Ha' E'. destruct (Nat.eq_dec t t') as [->|Hne].
      + rewrite nth_error_lset_same in E' by auto. injection E' as <- <-. exact Hsafe.
      + rewrite nth_error_lset_other in E' by auto.
        eapply safe_thread_rely with (m := fst s).
        * apply rt_step. exists t. auto.
        * eapply safe_thread_index; [|eapply Hs; eauto]. lia.
  Qed.

  Lemma sys_safe_exec sched : forall k (act : nat -> Prop) s Q, (forall t, In t sched -> act t) ->
    sys_safe (length sched + k) act s Q -> sys_safe k act (exec n sched s) Q.
  Proof.
    induction sched as [|t sched IH]; intros k act s Q Hact H; simpl in *; auto.
    apply IH; auto. apply sys_safe_step; auto.
  Qed.
End Logic.
