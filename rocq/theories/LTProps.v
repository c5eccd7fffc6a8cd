(* Theorems for C57. *)
From Verif Require Import Base ListUtil EMModel EMSpec EMProps FASpec FAProofs UFSpec SVModel SVProofs SVProps LTModel LTProofs.

(* every vertex is labelled with the least vertex of its component *)
Definition least_labels (n : nat) (outn : nat -> list nat) (P : nat -> nat) : Prop :=
  forall v, v < n -> reachable outn v (P v) /\ forall u, reachable outn v u -> P v <= u.
(* what compute_components leaves in P, from the identity and without sampling *)
Definition csr_returns (largest n : nat) (outn : nat -> list nat) c o full (P : nat -> nat) : Prop :=
  exists k msgs, lt_csr largest n outn c o full None (fun i => i) k P msgs false.
Definition coo_returns (largest n : nat) (outn : nat -> list nat) c o full (P : nat -> nat) : Prop :=
  exists k E msgs, lt_coo largest n c o full (sv_edges n outn (fun i => i) None) (fun i => i) k E P msgs false.

Section Main.
  Variables largest n : nat.
  Variable outn : nat -> list nat.
  Hypothesis G : graph_ok n outn outn.
  Hypothesis Hn : n <= largest.
  Let E0 := sv_edges n outn (fun i => i) None.
  Lemma E0_lt a b : In (a, b) E0 -> a < n /\ b < n.
  Proof. intros H. apply in_sv_edges in H. destruct H as (Ha & Hb & _). split; auto. exact (g_out G _ Ha Hb). Qed.
  Lemma conn_reach u v : u < n -> (connected E0 u v <-> reachable outn u v).
  Proof.
    intros Hu. split.
    - intros M. assert (X : forall a b, connected E0 a b -> (a < n <-> b < n) /\ (a < n -> reachable outn a b)).
      { clear u v Hu M. intros a b C. induction C as [a b Hab|a|a b _ [I1 I2]|a b c _ [I1 I2] _ [J1 J2]].
        - destruct (E0_lt a b Hab). split; [tauto|]. intros _. apply in_sv_edges in Hab. exists 1. eapply walk_S; [constructor|apply Hab].
        - split; [tauto|]. intros _. exists 0. constructor.
        - split; [tauto|]. intros Hb. apply (reach_sym G); tauto.
        - split; [tauto|]. intros Ha. eapply reach_trans; [now apply I2|apply J2; tauto]. }
      now apply X.
    - intros [k W]. induction W as [|k v w W IH Hw]; [apply rst_refl|]. eapply rst_trans; [exact IH|]. apply rst_step. apply in_sv_edges.
      split; auto. apply (reach_lt G Hu). eexists; eauto.
  Qed.
  Lemma least_conv P : (forall v, v < n -> connected E0 v (P v) /\ forall u, connected E0 v u -> P v <= u) -> least_labels n outn P.
  Proof. intros H v Hv. destruct (H v Hv) as [A B]. split; [now apply conn_reach|]. intros u Hu. apply B. now apply conn_reach. Qed.
  Lemma total_id : total n (fun i => i) <= n * n.
  Proof.
    unfold total. assert (X : forall k l, (forall v, In v l -> v <= k) -> list_sum (map (fun i => i) l) <= length l * k).
    { intros k. induction l as [|a l IH]; intros Hl; simpl; auto. assert (A := Hl a (or_introl eq_refl)). assert (B := IH (fun v Hv => Hl v (or_intror Hv))). lia. }
    etransitivity; [apply (X n)|rewrite seq_length; lia]. intros v Hv. apply in_seq in Hv. lia.
  Qed.

  Section Csr.
    Variables (c : connect_option) (o : update_option) (full : bool).
    Hypothesis Hopt : (full = true /\ c <> SimpleConnect) \/ (c = ExtendedConnect /\ o = SimpleUpdate).
    Lemma csr_inv k P msgs ch : lt_csr largest n outn c o full None (fun i => i) k P msgs ch ->
      finv n E0 o full P msgs /\ (ch = true -> k + total n msgs <= n * n) /\
      (ch = false -> least_labels n outn P).
    Proof.
      intros H. induction H as [|k P msgs P' msgs' ch H IH HR].
      - split; [apply finv_init|]. split; [intros _; apply total_id|discriminate].
      - destruct IH as (IH1 & IH2 & _). specialize (IH2 eq_refl).
        destruct (finv_round Hn E0_lt Hopt IH1 HR) as (A & B & D). split; [auto|]. split.
        + intros Hc. specialize (B Hc). lia.
        + intros Hc. apply least_conv. auto.
    Qed.
    Lemma csr_step k P msgs : lt_csr largest n outn c o full None (fun i => i) k P msgs true ->
      k <= n * n /\ exists P' msgs' ch, lt_round largest n c o full (sv_edges n outn P None) P msgs P' msgs' ch.
    Proof.
      intros H. destruct (csr_inv H) as (A & B & _). split; [specialize (B eq_refl); lia|].
      apply (@round_exists largest n Hn E0 c o full); [apply (f_P A)|apply (f_M A)|]. apply (fixed_calls Hn E0_lt c (f_P A)).
    Qed.
    Lemma csr_ends : exists P, csr_returns largest n outn c o full P.
    Proof.
      assert (X : forall d k P msgs, lt_csr largest n outn c o full None (fun i => i) k P msgs true -> S (n * n) <= d + k -> exists P, csr_returns largest n outn c o full P).
      { induction d; intros k P msgs H Hd.
        - destruct (csr_step H). lia.
        - destruct (csr_step H) as (_ & P' & msgs' & ch & HR). pose proof (csr_next H HR) as H'. destruct ch; [apply (IHd _ _ _ H'); lia|].
          exists P'. red. eauto. }
      apply (X (S (n * n)) 0 (fun i => i) (fun i => i)); [constructor|lia].
    Qed.
  End Csr.

  Section Coo.
    Variables (c : connect_option) (o : update_option).
    Lemma coo_inv k E P msgs ch : lt_coo largest n c o true E0 (fun i => i) k E P msgs ch ->
      ainv n E0 E P msgs /\ (ch = true -> k + total n msgs <= n * n) /\ (ch = false -> least_labels n outn P).
    Proof.
      intros H. induction H as [|k E P msgs P' msgs' ch H IH HR].
      - split; [apply (ainv_init Hn E0 E0_lt)|]. split; [intros _; apply total_id|discriminate].
      - destruct IH as (IH1 & IH2 & _). specialize (IH2 eq_refl).
        destruct (ainv_round Hn E0_lt IH1 HR) as (A & B & D). split; [auto|]. split.
        + intros Hc. specialize (B Hc). lia.
        + intros Hc. apply least_conv. auto.
    Qed.
    Lemma coo_step k E P msgs : lt_coo largest n c o true E0 (fun i => i) k E P msgs true ->
      k <= n * n /\ exists P' msgs' ch, lt_round largest n c o true (filter (fun e => negb (fst e =? snd e)) E) P msgs P' msgs' ch.
    Proof.
      intros H. destruct (coo_inv H) as (A & B & _). split; [specialize (B eq_refl); lia|].
      apply (@round_exists largest n Hn E0 c o true); [apply (a_P A)|apply (a_M A)|]. apply (alt_calls Hn E0_lt c A).
    Qed.
    Lemma coo_ends : exists P, coo_returns largest n outn c o true P.
    Proof.
      assert (X : forall d k E P msgs, lt_coo largest n c o true E0 (fun i => i) k E P msgs true -> S (n * n) <= d + k -> exists P, coo_returns largest n outn c o true P).
      { induction d; intros k E P msgs H Hd.
        - destruct (coo_step H). lia.
        - destruct (coo_step H) as (_ & P' & msgs' & ch & HR). pose proof (coo_next H HR) as H'. destruct ch; [apply (IHd _ _ _ _ H'); lia|].
          exists P'. red. eauto. }
      apply (X (S (n * n)) 0 (my_alter largest (fun i => i) E0) (fun i => i) (fun i => i)); [constructor|lia].
    Qed.
  End Coo.
End Main.

(* C57, without alter: parent-connect and extended-connect with full shortcuts, and
   extended-connect with simple updates and either kind of shortcut, on a symmetric graph,
   whatever the order of the messages and the interleaving of the shortcuts.  There is a
   result, there are at most n^2 rounds before the last and the next one can always be run;
   every result labels each vertex with the least vertex of its component. *)
Theorem C57_without_alter : forall largest n outn c o full, graph_ok n outn outn -> n <= largest ->
  (full = true /\ c <> SimpleConnect) \/ (c = ExtendedConnect /\ o = SimpleUpdate) ->
  (exists P, csr_returns largest n outn c o full P) /\
  (forall k P msgs, lt_csr largest n outn c o full None (fun i => i) k P msgs true ->
     k <= n * n /\ exists P' msgs' ch, lt_round largest n c o full (sv_edges n outn P None) P msgs P' msgs' ch) /\
  (forall P, csr_returns largest n outn c o full P -> least_labels n outn P).
Proof.
  intros largest n outn c o full G Hn Ho. split; [now apply csr_ends|]. split.
  - intros k P msgs H. exact (csr_step G Hn Ho H).
  - intros P (k & msgs & H). now apply (csr_inv G Hn Ho H).
Qed.
Print Assumptions C57_without_alter.

(* with alter: every combination with full shortcuts *)
Theorem C57_with_alter : forall largest n outn c o, graph_ok n outn outn -> n <= largest ->
  (exists P, coo_returns largest n outn c o true P) /\
  (forall k E P msgs, lt_coo largest n c o true (sv_edges n outn (fun i => i) None) (fun i => i) k E P msgs true ->
     k <= n * n /\ exists P' msgs' ch, lt_round largest n c o true (filter (fun e => negb (fst e =? snd e)) E) P msgs P' msgs' ch) /\
  (forall P, coo_returns largest n outn c o true P -> least_labels n outn P).
Proof.
  intros largest n outn c o G Hn. split; [now apply coo_ends|]. split.
  - intros k E P msgs H. exact (coo_step G Hn H).
  - intros P (k & E & msgs & H). now apply (coo_inv G Hn H).
Qed.
Print Assumptions C57_with_alter.

(* ---------- executable runs, for the counterexamples ---------- *)
Section Run.
  Variables largest n : nat.
  Variables (c : connect_option) (o : update_option) (full : bool).
  Variable sched : list nat.
  (* the same function, tabulated below n so that it is computed once *)
  Definition tab (f : nat -> nat) : nat -> nat := let l := map f (seq 0 n) in fun v => if v <? n then nth v l 0 else f v.
  Lemma tab_eq f v : tab f v = f v.
  Proof. unfold tab. destruct (Nat.ltb_spec v n); auto. now rewrite nth_map_seq. Qed.
  Definition ltr (E : list (nat * nat)) (pm : (nat -> nat) * (nat -> nat)) :=
    let (m', ch) := msg_writes largest (flat_map (connect_calls largest c (fst pm)) E) (snd pm) in
    let m' := tab m' in
    let s := jexec largest sched (jstart (B1 full) (tab (lt_update largest n o (fst pm) m')) (seq 0 n)) in
    if forallb (fun x => negb (jbusy (snd x))) (jthr s) then Some ((tab (jpar s), m'), ch) else None.
  Definition peq (f g : nat -> nat) : Prop := forall v, f v = g v.
  Lemma jexec_ext sc : forall s s', peq (jpar s) (jpar s') -> jthr s = jthr s' ->
    peq (jpar (jexec largest sc s)) (jpar (jexec largest sc s')) /\ jthr (jexec largest sc s) = jthr (jexec largest sc s').
  Proof.
    induction sc as [|t r IH]; intros s s' HP HT; [split; auto|]. unfold jexec. cbn [fold_left]. apply IH; unfold jstep; rewrite HT; destruct (nth_error (jthr s') t) as [[u pc]|]; auto.
    - destruct pc; cbn [jact jpar jthr]; auto; intros v; unfold fset; rewrite ?HP; try destruct (v =? u); auto.
    - destruct pc; cbn [jact jpar jthr]; rewrite ?HP; auto.
  Qed.
  Lemma writes_ext calls : forall a b x, peq a b ->
    peq (fst (fold_left (msg_write largest) calls (a, x))) (fst (fold_left (msg_write largest) calls (b, x))) /\
    snd (fold_left (msg_write largest) calls (a, x)) = snd (fold_left (msg_write largest) calls (b, x)).
  Proof.
    induction calls as [|[h l] r IH]; intros a b x H; [split; auto|]. cbn [fold_left]. unfold msg_write at 2 4 6 8. cbn [fst snd]. rewrite (H h).
    destruct (lt_less largest l (b h)); apply IH; auto. intros v. unfold fset. destruct (v =? h); auto.
  Qed.
  Lemma calls_ext (P Q : nat -> nat) E : peq P Q -> flat_map (connect_calls largest c P) E = flat_map (connect_calls largest c Q) E.
  Proof. intros H. induction E as [|e r IH]; simpl; auto. rewrite IH. f_equal. unfold connect_calls. now rewrite !H. Qed.
  Lemma ltr_sound E pm pm' ch P msgs : ltr E pm = Some (pm', ch) -> peq P (fst pm) -> peq msgs (snd pm) ->
    exists P' msgs', lt_round largest n c o full E P msgs P' msgs' ch /\ peq P' (fst pm') /\ peq msgs' (snd pm').
  Proof.
    unfold ltr. intros H HP HM. rewrite <- (calls_ext E HP) in H. set (calls := flat_map _ E) in *. unfold msg_writes in H.
    destruct (writes_ext calls false HM) as [W1 W2]. destruct (fold_left _ calls (snd pm, false)) as [m' b] eqn:Ew. cbn [fst snd] in W1, W2.
    destruct (fold_left (msg_write largest) calls (msgs, false)) as [m1 b1] eqn:Ew1. cbn [fst snd] in W1, W2. subst b1.
    set (s := jexec _ _ _) in H. set (s1 := jexec largest sched (jstart (B1 full) (lt_update largest n o P m1) (seq 0 n))).
    assert (X : peq (jpar s1) (jpar s) /\ jthr s1 = jthr s).
    { apply jexec_ext; [|reflexivity]. intros v. cbn [jstart jpar]. rewrite tab_eq. unfold lt_update. now rewrite !HP, !tab_eq, !W1. }
    destruct X as [X1 X2]. destruct (forallb _ _) eqn:Ef; [|discriminate]. injection H as <- <-. exists (jpar s1), m1. split; [|split].
    - eapply lt_round_intro; [apply Permutation_refl|exact Ew1|]. fold s1.
      intros u pc Hin. rewrite X2 in Hin. rewrite forallb_forall in Ef. specialize (Ef _ Hin). cbn in Ef. destruct pc; try discriminate. eauto.
    - intros v. cbn [fst]. now rewrite tab_eq.
    - intros v. cbn [snd]. now rewrite tab_eq.
  Qed.
  Fixpoint ltl (fuel : nat) (E : (nat -> nat) -> list (nat * nat)) (pm : (nat -> nat) * (nat -> nat)) :=
    match fuel with
    | 0 => None
    | S f => match ltr (E (fst pm)) pm with Some (pm', true) => ltl f E pm' | Some (pm', false) => Some pm' | None => None end
    end.
  Lemma edges_ext outn freq (P Q : nat -> nat) : peq P Q -> sv_edges n outn P freq = sv_edges n outn Q freq.
  Proof. intros H. unfold sv_edges. f_equal. apply filter_ext. intros a. destruct freq; auto. now rewrite H. Qed.
  Lemma csr_sound outn freq P0 f : forall pm pm' k P msgs, ltl f (fun P => sv_edges n outn P freq) pm = Some pm' -> peq P (fst pm) -> peq msgs (snd pm) ->
    lt_csr largest n outn c o full freq P0 k P msgs true ->
    exists k' P' msgs', lt_csr largest n outn c o full freq P0 k' P' msgs' false /\ peq P' (fst pm').
  Proof.
    induction f; intros pm pm' k P msgs H HP HM L; [discriminate|]. cbn [ltl] in H. destruct (ltr _ _) as [[pm1 ch]|] eqn:Er; [|discriminate].
    rewrite <- (edges_ext outn freq HP) in Er. destruct (ltr_sound _ _ Er HP HM) as (P' & msgs' & R & HP' & HM').
    pose proof (csr_next L R) as L'. destruct ch; [eapply IHf; eauto|]. injection H as <-. eauto.
  Qed.
  Fixpoint ltc (fuel : nat) (E : list (nat * nat)) (pm : (nat -> nat) * (nat -> nat)) :=
    match fuel with
    | 0 => None
    | S f => match ltr (filter (fun e => negb (fst e =? snd e)) E) pm with
             | Some (pm', true) => ltc f (my_alter largest (fst pm') E) pm' | Some (pm', false) => Some pm' | None => None end
    end.
  Lemma alter_ext (P Q : nat -> nat) E : peq P Q -> my_alter largest P E = my_alter largest Q E.
  Proof. intros H. unfold my_alter. apply map_ext. intros e. now rewrite !H. Qed.
  Lemma coo_sound E0 P0 f : forall E pm pm' k P msgs, ltc f E pm = Some pm' -> peq P (fst pm) -> peq msgs (snd pm) ->
    lt_coo largest n c o full E0 P0 k E P msgs true ->
    exists k' E' P' msgs', lt_coo largest n c o full E0 P0 k' E' P' msgs' false /\ peq P' (fst pm').
  Proof.
    induction f; intros E pm pm' k P msgs H HP HM L; [discriminate|]. cbn [ltc] in H. destruct (ltr _ _) as [[pm1 ch]|] eqn:Er; [|discriminate].
    destruct (ltr_sound _ _ Er HP HM) as (P' & msgs' & R & HP' & HM').
    pose proof (coo_next L R) as L'. destruct ch; [|injection H as <-; eauto 8].
    rewrite (alter_ext E HP') in L'. eapply IHf; eauto.
  Qed.
End Run.

(* the path 0 - 1 - ... - (n-1) *)
Definition path_out (n v : nat) : list nat := filter (fun w => (w =? S v) || (S w =? v)) (seq 0 n).
Lemma path_ok n : graph_ok n (path_out n) (path_out n).
Proof.
  unfold path_out. split.
  - intros s d Hs Hd. rewrite !filter_In, !in_seq, !orb_true_iff, !Nat.eqb_eq. lia.
  - intros s d Hs H. apply filter_In in H. destruct H as [H _]. apply in_seq in H. lia.
  - intros s d Hs H. apply filter_In in H. destruct H as [H _]. apply in_seq in H. lia.
Qed.
Lemma path_reach n v : v < n -> reachable (path_out n) v 0.
Proof.
  intros Hv. induction v as [|v IH]; [exists 0; constructor|]. eapply reach_trans; [|apply IH; lia]. exists 1. eapply walk_S; [constructor|].
  unfold path_out. apply filter_In. split; [apply in_seq; lia|]. apply orb_true_iff. right. now apply Nat.eqb_eq.
Qed.
(* the shortcuts run from the last vertex to the first *)
Definition down (n : nat) : list nat := flat_map (fun t => repeat t 4) (rev (seq 0 n)).

(* With the single shortcut the loop stops when no message changes although the trees are not
   flat: the last vertex of a path of six keeps label 1 while the rest of its component is
   labelled 0.  (PUS, PRS; CUSA, CRSA, PUSA, PRSA.) *)
Theorem C57_single_shortcut_refuted : forall largest, 6 <= largest ->
  (forall o, exists P, csr_returns largest 6 (path_out 6) ParentConnect o false P /\ P 5 = 1 /\ P 0 = 0 /\ reachable (path_out 6) 5 0) /\
  (forall c o, c <> ExtendedConnect ->
     exists P, coo_returns largest 6 (path_out 6) c o false P /\ P 5 = 1 /\ P 0 = 0 /\ reachable (path_out 6) 5 0).
Proof.
  intros largest HL. replace largest with (6 + (largest - 6)) by lia. generalize (largest - 6) as q. clear HL. intros q.
  split; [intros o|intros c o Hc].
  - assert (V : match ltl (6 + q) 6 ParentConnect o false (down 6) 5 (fun P => sv_edges 6 (path_out 6) P None) (fun i => i, fun i => i) with
                | Some pm => fst pm 5 = 1 /\ fst pm 0 = 0 | None => False end) by (destruct o; vm_compute; auto).
    destruct (ltl _ _ _ _ _ _ _ _ _) as [pm|] eqn:El; [|destruct V].
    edestruct (@csr_sound) as (k & P & msgs & Hk & HP); [exact El|intros v; reflexivity|intros v; reflexivity|apply csr_start|].
    exists P. split; [red; eauto|]. rewrite !HP. destruct V. repeat (split; auto). apply path_reach. lia.
  - assert (V : match ltc (6 + q) 6 c o false (down 6) 5 (my_alter (6 + q) (fun i => i) (sv_edges 6 (path_out 6) (fun i => i) None)) (fun i => i, fun i => i) with
                | Some pm => fst pm 5 = 1 /\ fst pm 0 = 0 | None => False end) by (destruct c; [| |now elim Hc]; destruct o; vm_compute; auto).
    destruct (ltc _ _ _ _ _ _ _ _ _) as [pm|] eqn:El; [|destruct V].
    edestruct (@coo_sound) as (k & E' & P & msgs & Hk & HP); [exact El|intros v; reflexivity|intros v; reflexivity|apply coo_start|].
    exists P. split; [red; eauto|]. rewrite !HP. destruct V. repeat (split; auto). apply path_reach. lia.
Qed.
Print Assumptions C57_single_shortcut_refuted.

(* ... and extended-connect with alter on a path of thirteen (EUSA) *)
Theorem C57_extended_alter_refuted : forall largest, 13 <= largest ->
  exists P, coo_returns largest 13 (path_out 13) ExtendedConnect SimpleUpdate false P /\ P 12 = 1 /\ P 0 = 0 /\ reachable (path_out 13) 12 0.
Proof.
  intros largest HL. replace largest with (13 + (largest - 13)) by lia. generalize (largest - 13) as q. clear HL. intros q.
  assert (V : match ltc (13 + q) 13 ExtendedConnect SimpleUpdate false (down 13) 6 (my_alter (13 + q) (fun i => i) (sv_edges 13 (path_out 13) (fun i => i) None)) (fun i => i, fun i => i) with
              | Some pm => fst pm 12 = 1 /\ fst pm 0 = 0 | None => False end) by (vm_compute; auto).
  destruct (ltc _ _ _ _ _ _ _ _ _) as [pm|] eqn:El; [|destruct V].
  edestruct (@coo_sound) as (k & E' & P & msgs & Hk & HP); [exact El|intros v; reflexivity|intros v; reflexivity|apply coo_start|].
  exists P. split; [red; eauto|]. rewrite !HP. destruct V. repeat (split; auto). apply path_reach. lia.
Qed.
Print Assumptions C57_extended_alter_refuted.

(* With alter, sampling and simple updates: sampling labels the component {0,1} with its vertex
   1 (as a low-diameter decomposition may) and {2,3,4}, the frequent one, with 2.  The edge
   (0,1) is altered to (1,1) and never looked at again, while messages[0] = 0 resets P[0].
   (largest_comp is 9 here, a number that is not a vertex.) *)
Definition two_out (v : nat) : list nat := match v with 0 => [1] | 1 => [0] | 2 => [3] | 3 => [2; 4] | 4 => [3] | _ => [] end.
Definition two_lab (v : nat) : nat := match v with 0 | 1 => 1 | _ => 2 end.
Lemma two_ok : graph_ok 5 two_out two_out.
Proof.
  split.
  - intros s d Hs Hd. do 5 (destruct s; [do 5 (destruct d; [simpl; intuition lia|]); lia|]). lia.
  - intros s d Hs H. do 5 (destruct s; [simpl in H; intuition lia|]). lia.
  - intros s d Hd H. do 5 (destruct d; [simpl in H; intuition lia|]). lia.
Qed.
Theorem C57_sampled_alter_refuted : forall c full, let largest := 9 in
  (forall v, v < 5 -> two_lab v < 5 /\ two_lab (two_lab v) = two_lab v /\ reachable two_out v (two_lab v)) /\
  exists k E P msgs, lt_coo largest 5 c SimpleUpdate full (sv_edges 5 two_out (fun i => i) None) (relabel largest 2 two_lab) k E P msgs false /\
    unlabel largest 2 P 0 = 0 /\ unlabel largest 2 P 1 = 1 /\ reachable two_out 0 1.
Proof.
  intros c full largest. split.
  - intros v Hv. destruct v as [|[|[|[|[|v]]]]]; [| | | | |lia]; (split; [simpl; lia|split; [reflexivity|]]); cbn [two_lab].
    + exists 1. apply walk_S with 0; [constructor|now left].
    + exists 0. constructor.
    + exists 0. constructor.
    + exists 1. apply walk_S with 3; [constructor|now left].
    + exists 2. apply walk_S with 3; [|now left]. apply walk_S with 4; [constructor|now left].
  - assert (V : match ltc largest 5 c SimpleUpdate full (down 5) 3 (my_alter largest (relabel largest 2 two_lab) (sv_edges 5 two_out (fun i => i) None))
                        (relabel largest 2 two_lab, fun i => i) with
                | Some pm => unlabel largest 2 (fst pm) 0 = 0 /\ unlabel largest 2 (fst pm) 1 = 1 | None => False end)
      by (destruct c, full; vm_compute; auto).
    destruct (ltc _ _ _ _ _ _ _ _ _) as [pm|] eqn:El; [|destruct V].
    edestruct (@coo_sound) as (k & E' & P & msgs & Hk & HP); [exact El|intros v; reflexivity|intros v; reflexivity|apply coo_start|].
    exists k, E', P, msgs. split; [exact Hk|]. unfold unlabel in *. rewrite !HP. destruct V. repeat (split; auto). exists 1. apply walk_S with 0; [constructor|now left].
Qed.
Print Assumptions C57_sampled_alter_refuted.

(* StergiouAlgorithm: previous_parents stays 0, so in every result every vertex with a neighbour
   has label 0 *)
Lemma stergiou_inv largest n outn P0 k r P prev ch : graph_ok n outn outn -> n <= largest -> (forall v, v < n -> P0 v <= v) ->
  stergiou_loop largest n outn P0 k r P prev ch ->
  r = 0 /\ (forall v, prev v = 0) /\ (forall v, v < n -> P v <= v) /\ (0 < k -> forall v, v < n -> outn v <> [] -> P v = 0).
Proof.
  intros G Hn H0 H. induction H as [|k r P prev calls sched H IH prev' Hperm P1 s F].
  - repeat split; auto. lia.
  - destruct IH as (-> & Hz & Hle & _). assert (Hz' : forall v, prev' v = 0) by (intros; apply Hz).
    split; auto. split; auto.
    assert (A : forall v, P1 v <= P v) by (intros; apply min_writes_le).
    assert (Z : forall v, v < n -> outn v <> [] -> P1 v = 0).
    { intros v Hv Ho. destruct (outn v) as [|w l] eqn:Eo; [congruence|]. enough (P1 v <= 0) by lia.
      apply min_writes_bound. eapply Permutation_in; [apply Permutation_sym; exact Hperm|]. apply in_flat_map. exists (v, w). split.
      - apply in_sv_edges. rewrite Eo. repeat split; auto. now left.
      - unfold stergiou_calls. cbn [fst snd]. rewrite !Hz'. right. now left. }
    assert (RK : ranked n (fun x => x) P1).
    { intros x Hx. specialize (A x). specialize (Hle x Hx). lia. }
    pose proof (rootf_rooted RK) as RR.
    assert (J : jinv largest n (fun x => x) (rootf (fun x => x) P1) false P1 (seq 0 n) s).
    { apply jexec_inv; [apply seq_NoDup|]. apply jstart_inv; auto. intros u Hu. apply in_seq in Hu. lia. }
    assert (L : forall v, v < n -> jpar s v <= P1 v) by apply J.
    split.
    + intros v Hv. specialize (L v Hv). specialize (A v). specialize (Hle v Hv). lia.
    + intros _ v Hv Ho. specialize (L v Hv). rewrite (Z v Hv Ho) in L. lia.
Qed.
Lemma finished_b s : forallb (fun x => negb (jbusy (snd x))) (jthr s) = true -> jfinished s.
Proof. intros Ef u pc Hin. rewrite forallb_forall in Ef. specialize (Ef _ Hin). cbn in Ef. destruct pc; try discriminate. eauto. Qed.
Theorem C57_stergiou_refuted :
  (forall largest n outn k r P prev, graph_ok n outn outn -> n <= largest ->
     stergiou_loop largest n outn (fun i => i) k r P prev false -> forall v, v < n -> outn v <> [] -> P v = 0) /\
  (forall largest, 5 <= largest -> exists k r P prev,
     stergiou_loop largest 5 two_out (fun i => i) k r P prev false /\ P 0 = P 2 /\ ~ reachable two_out 0 2).
Proof.
  split.
  - intros largest n outn k r P prev G Hn H v Hv Ho.
    destruct (stergiou_inv G Hn (fun v _ => le_n v) H) as (_ & _ & _ & I). apply I; auto. inversion H. lia.
  - intros largest HL. replace largest with (5 + (largest - 5)) by lia. generalize (largest - 5) as q. clear HL. intros q.
    pose (E := fun P : nat -> nat => flat_map (stergiou_calls (fun _ => 0)) (sv_edges 5 two_out P None)).
    pose (P1 := fun P => min_writes (E P) P).
    pose (sh := fun P => jexec (5 + q) (down 5) (jstart (B1 false) (P1 P) (seq 0 5))).
    assert (F : forall P, forallb (fun x => negb (jbusy (snd x))) (jthr (sh P)) = true -> jfinished (sh P)).
    { intros P. apply finished_b. }
    pose (Q1 := jpar (sh (fun i => i))). pose (Q2 := jpar (sh Q1)).
    assert (L1 : stergiou_loop (5 + q) 5 two_out (fun i => i) 1 0 Q1 (fun _ => 0) true).
    { assert (X : true = existsb (fun v => P1 (fun i => i) v <? v) (seq 0 5)) by (vm_compute; reflexivity). rewrite X.
      apply (@st_next (5 + q) 5 two_out (fun i => i) 0 0 (fun i => i) (fun _ => 0) (E (fun i => i)) (down 5)); [constructor|apply Permutation_refl|].
      apply (F (fun i => i)). vm_compute. reflexivity. }
    assert (L2 : stergiou_loop (5 + q) 5 two_out (fun i => i) 2 0 Q2 (fun _ => 0) false).
    { assert (X : false = existsb (fun v => P1 Q1 v <? Q1 v) (seq 0 5)) by (vm_compute; reflexivity). rewrite X.
      apply (@st_next (5 + q) 5 two_out (fun i => i) 1 0 Q1 (fun _ => 0) (E Q1) (down 5)); [exact L1|apply Permutation_refl|].
      apply (F Q1). vm_compute. reflexivity. }
    exists 2, 0, Q2, (fun _ => 0). split; [exact L2|]. split; [vm_compute; reflexivity|].
    intros [k W]. assert (X : forall k v, walk two_out 0 k v -> v <= 1).
    { clear. intros k v W. induction W as [|k v w W IH Hw]; [lia|]. destruct v as [|[|v]]; [| |lia]; simpl in Hw; intuition lia. }
    apply X in W. lia.
Qed.
Print Assumptions C57_stergiou_refuted.

(* ---------- a concrete case ---------- *)
Example C57_graph_example : graph_ok 6 (path_out 6) (path_out 6) /\ graph_ok 5 two_out two_out.
Proof. split; [apply path_ok|apply two_ok]. Qed.
(* a run with full shortcuts *)
Example C57_run_example : exists P, csr_returns 9 6 (path_out 6) ParentConnect RootUpdate true P /\ P 5 = 0.
Proof.
  assert (V : match ltl 9 6 ParentConnect RootUpdate true (flat_map (fun t => repeat t 20) (seq 0 6)) 5 (fun P => sv_edges 6 (path_out 6) P None) (fun i => i, fun i => i) with
              | Some pm => fst pm 5 = 0 | None => False end) by (vm_compute; auto).
  destruct (ltl _ _ _ _ _ _ _ _ _) as [pm|] eqn:El; [|destruct V].
  edestruct (@csr_sound) as (k & P & msgs & Hk & HP); [exact El|intros v; reflexivity|intros v; reflexivity|apply csr_start|].
  exists P. split; [red; eauto|]. now rewrite HP.
Qed.
