(* Theorems for C56. *)
From Verif Require Import Base EMModel EMSpec EMProps FASpec FAProofs UFSpec SVModel SVProofs.

Lemma in_sv_edges n outn par0 freq u v : In (u, v) (sv_edges n outn par0 freq) <->
  u < n /\ In v (outn u) /\ match freq with Some f => par0 u <> f | None => True end.
Proof.
  unfold sv_edges. rewrite in_flat_map. split.
  - intros (x & Hx & H). apply in_map_iff in H. destruct H as (y & E & Hy). injection E as -> ->.
    apply filter_In in Hx. destruct Hx as [Hx F]. apply in_seq in Hx. split; [lia|]. split; auto.
    destruct freq; auto. apply negb_true_iff, Nat.eqb_neq in F. auto.
  - intros (Hu & Hv & F). exists u. split; [|apply in_map_iff; eauto]. apply filter_In. split; [apply in_seq; lia|].
    destruct freq; auto. now apply negb_true_iff, Nat.eqb_neq.
Qed.

Section Components.
  Variable n : nat.
  Variable outn : nat -> list nat.
  Variable par0 : nat -> nat.
  Variable freq : option nat.
  Hypothesis G : graph_ok n outn outn.
  Hypothesis H0 : forall v, v < n -> par0 v < n /\ par0 (par0 v) = par0 v /\ reachable outn v (par0 v).
  Let E := sv_edges n outn par0 freq.
  Lemma comp_vn v : In v (seq 0 n) -> v < n. Proof. intros H. apply in_seq in H. lia. Qed.
  Lemma comp_E a b : In (a, b) E -> In a (seq 0 n) /\ In b (seq 0 n).
  Proof. intros H. apply in_sv_edges in H. destruct H as (Ha & Hb & _). pose proof (g_out G _ Ha Hb). split; apply in_seq; lia. Qed.
  Lemma comp_0 v : v < n -> par0 v < n /\ par0 (par0 v) = par0 v. Proof. intros H. now destruct (H0 H) as (A & B & _). Qed.
  Lemma comp_out v : v < n -> ~ In v (seq 0 n) -> par0 v = v. Proof. intros H F. destruct F. apply in_seq. lia. Qed.
  Lemma comp_in v : In v (seq 0 n) -> In (par0 v) (seq 0 n). Proof. intros H. apply comp_vn in H. destruct (comp_0 H). apply in_seq. lia. Qed.

  Lemma mrel_reach u v : u < n -> v < n -> (mrel n E par0 u v <-> reachable outn u v).
  Proof.
    intros Hu Hv. split.
    - intros M. assert (X : forall a b, mrel n E par0 a b -> (a < n <-> b < n) /\ (a < n -> reachable outn a b)).
      { clear u v Hu Hv M. intros a b C. induction C as [a b [Hab|[Ha ->]]|a|a b _ [I1 I2]|a b c _ [I1 I2] _ [J1 J2]].
        - apply in_sv_edges in Hab. destruct Hab as (Ha & Hb & _). pose proof (g_out G _ Ha Hb). split; [tauto|]. intros _. exists 1.
          eapply walk_S; [constructor|auto].
        - destruct (H0 Ha) as (A & B & C). tauto.
        - split; [tauto|]. intros _. exists 0. constructor.
        - split; [tauto|]. intros Hb. apply (reach_sym G); tauto.
        - split; [tauto|]. intros Ha. eapply reach_trans; [now apply I2|apply J2; tauto]. }
      now apply X.
    - intros [k W]. clear Hv. induction W as [|k v w W IH Hw]; [apply rst_refl|].
      eapply rst_trans; [exact IH|]. assert (Hv : v < n) by (apply (reach_lt G Hu); eexists; eauto).
      pose proof (g_out G _ Hv Hw) as Hwn.
      (* the edge is looked at from one of its ends unless both are in the frequent component *)
      assert (K : forall a b, a < n -> In b (outn a) -> match freq with Some f => par0 a <> f | None => True end -> mrel n E par0 a b).
      { intros a b Ha Hb F. apply rst_step. left. apply in_sv_edges. auto. }
      destruct freq as [f|] eqn:Ef; [|now apply K].
      destruct (Nat.eq_dec (par0 v) f) as [Fv|Fv]; [|now apply K].
      destruct (Nat.eq_dec (par0 w) f) as [Fw|Fw].
      + eapply rst_trans; [apply rst_step; right; split; [exact Hv|reflexivity]|]. rewrite Fv, <- Fw.
        apply rst_sym. apply rst_step. auto.
      + apply rst_sym. apply K; auto. now apply (g_dual G).
  Qed.

  Lemma comp_ends : exists par, sv_returns n outn par0 freq par.
  Proof.
    destruct (@sv_ends n E (seq 0 n) par0) as (k & par & prev & H); auto using seq_NoDup, comp_vn, comp_0, comp_out, comp_in.
    - exact comp_E.
    - exists par, k, prev. exact H.
  Qed.
  Lemma comp_step k par prev : sv_loop E (seq 0 n) par0 par0 k par prev true ->
    k <= n /\ exists par' prev' ch, sv_round E (seq 0 n) par prev par' prev' ch.
  Proof.
    intros H. pose proof (@sv_loop_ok n E (seq 0 n) par0 (seq_NoDup _ _) comp_vn comp_E comp_0 comp_out comp_in k par prev true H) as (A & B & C & _).
    split; [specialize (C eq_refl); lia|]. apply (@sv_progress n E (seq 0 n) par0 (seq_NoDup _ _) comp_vn comp_E par prev A).
  Qed.
  Lemma comp_labels par u v : sv_returns n outn par0 freq par -> u < n -> v < n -> (par u = par v <-> reachable outn u v).
  Proof.
    intros (k & prev & H) Hu Hv.
    rewrite (@sv_labels n E (seq 0 n) par0 (seq_NoDup _ _) comp_vn comp_E comp_0 comp_out comp_in k par prev u v H Hu Hv).
    now apply mrel_reach.
  Qed.
  Lemma comp_member par v : sv_returns n outn par0 freq par -> v < n -> reachable outn v (par v) /\ ((forall x, x < n -> par0 x <= x) -> par v <= v).
  Proof.
    intros (k & prev & H) Hv.
    pose proof (@sv_loop_ok n E (seq 0 n) par0 (seq_NoDup _ _) comp_vn comp_E comp_0 comp_out comp_in k par prev false H) as (A & _).
    rewrite (i_eq A Hv). split; [|intros L; now apply (i_le A)]. apply mrel_reach; auto; [apply (i_flat A Hv)|now apply (i_con A)].
  Qed.
End Components.

(* C56: Shiloach-Vishkin on a symmetric graph, from any initial labelling whose labels are
   vertices of the right component and label themselves (the identity, or what the sampling
   strategies return), skipping the vertices of any frequent component, in whichever order the
   hooks take effect and however the pointer-jumping tasks interleave.  There is a result;
   there are at most n rounds before the last and the next one can always be run; in every
   result two vertices have the same label exactly if they are connected, and the label is a
   vertex of the component. *)
Theorem C56_components : forall n outn par0 freq, graph_ok n outn outn ->
  (forall v, v < n -> par0 v < n /\ par0 (par0 v) = par0 v /\ reachable outn v (par0 v)) ->
  (exists par, sv_returns n outn par0 freq par) /\
  (forall k par prev, sv_loop (sv_edges n outn par0 freq) (seq 0 n) par0 par0 k par prev true ->
     k <= n /\ exists par' prev' ch, sv_round (sv_edges n outn par0 freq) (seq 0 n) par prev par' prev' ch) /\
  (forall par, sv_returns n outn par0 freq par ->
     (forall u v, u < n -> v < n -> (par u = par v <-> reachable outn u v)) /\
     (forall v, v < n -> reachable outn v (par v))).
Proof.
  intros n outn par0 freq G H0. split; [now apply comp_ends|]. split.
  - intros k par prev H. exact (comp_step freq G H0 H).
  - intros par HR. split; intros.
    + eapply comp_labels; eauto.
    + eapply comp_member; eauto.
Qed.
Print Assumptions C56_components.

(* from the identity the label is the least vertex of the component *)
Theorem C56_least_vertex : forall n outn par, graph_ok n outn outn -> sv_returns n outn (fun v => v) None par ->
  forall v, v < n -> reachable outn v (par v) /\ forall u, reachable outn v u -> par v <= u.
Proof.
  intros n outn par G HR v Hv.
  assert (H0 : forall v, v < n -> v < n /\ v = v /\ reachable outn v v) by (intros x Hx; repeat split; auto; exists 0; constructor).
  destruct (@comp_member n outn (fun v => v) None G H0 par v HR Hv) as [A _]. split; auto. intros u Hu.
  pose proof (reach_lt G Hv Hu) as Hun. rewrite (proj2 (@comp_labels n outn (fun v => v) None G H0 par v u HR Hv Hun) Hu).
  apply (@comp_member n outn (fun v => v) None G H0 par u HR Hun). auto.
Qed.
Print Assumptions C56_least_vertex.

(* no interleaving of the pointer-jumping tasks of a round goes on for ever *)
Fixpoint jworks (largest : nat) (sched : list nat) (s : jstate) : Prop :=
  match sched with
  | [] => True
  | t :: r => (exists u pc, nth_error (jthr s) t = Some (u, pc) /\ forall x, pc <> JDone x) /\ jworks largest r (jstep largest s t)
  end.
Lemma jworks_bound largest n m R full par1 vs : NoDup vs -> forall sched s, jinv largest n m R full par1 vs s -> jworks largest sched s ->
  length sched <= jpot m s.
Proof.
  intros ND. induction sched as [|t r IH]; intros s HI H; cbn [length]; [lia|]. destruct H as [(u & pc & Et & Hp) H].
  assert (D : jpot m (jstep largest s t) < jpot m s) by (eapply jpot_decr; eauto).
  specialize (IH _ (@jstep_inv largest n m R full par1 vs s t ND HI) H). lia.
Qed.
Theorem C56_round_terminates : forall n outn par0 freq, graph_ok n outn outn ->
  (forall v, v < n -> par0 v < n /\ par0 (par0 v) = par0 v /\ reachable outn v (par0 v)) ->
  forall k par prev calls, sv_loop (sv_edges n outn par0 freq) (seq 0 n) par0 par0 k par prev true ->
  Permutation calls (flat_map (hook_call prev) (sv_edges n outn par0 freq)) ->
  exists N, forall sched, jworks 0 sched (jstart A1 (min_writes calls par) (seq 0 n)) -> length sched <= N.
Proof.
  intros n outn par0 freq G H0 k par prev calls H HC.
  pose proof (@sv_loop_ok n _ (seq 0 n) par0 (seq_NoDup _ _) (@comp_vn n) (@comp_E n outn par0 freq G) (@comp_0 n outn par0 H0) (@comp_out n par0) (@comp_in n outn par0 H0) k par prev true H) as (A & _).
  pose proof (@par1_ranked n _ (seq 0 n) par0 (@comp_vn n) (@comp_E n outn par0 freq G) par prev A calls HC) as RK.
  eexists. intros sched W. eapply jworks_bound; [apply seq_NoDup| |exact W]. apply (@jstart_inv 0 n _ _ true); [exact RK|apply rootf_rooted; exact RK|apply comp_vn|exact I].
Qed.
Print Assumptions C56_round_terminates.

(* process_batch: after the first batch on fresh labels the classes are the components of the
   inserted edges ... *)
Theorem C56_first_batch : forall ups par prev, sv_batch ups (fun v => v) (fun v => v) par prev ->
  forall u v, par u = par v <-> connected (sv_inserts ups) u v.
Proof.
  intros ups par prev [k H] u v. set (n := S (list_max (u :: v :: sv_endpoints ups))).
  assert (LM : forall x, In x (u :: v :: sv_endpoints ups) -> x < n).
  { intros x Hx. unfold n. pose proof (proj1 (list_max_le (u :: v :: sv_endpoints ups) _) (le_n _)) as F.
    rewrite Forall_forall in F. specialize (F x Hx). lia. }
  assert (HE : forall a b, In (a, b) (sv_inserts ups) -> In a (sv_endpoints ups) /\ In b (sv_endpoints ups)).
  { intros a b Hab. unfold sv_inserts in Hab. apply in_map_iff in Hab. destruct Hab as ([[a' b'] q] & X & Hin). cbn in X. injection X as -> ->.
    apply filter_In in Hin. destruct Hin as [Hin _]. unfold sv_endpoints. split; apply nodup_In, in_flat_map; exists (a, b, q); cbn; auto. }
  rewrite (@sv_labels n (sv_inserts ups) (sv_endpoints ups) (fun v => v)) with (k := k) (prev := prev); auto.
  - assert (M : forall a b, mrel n (sv_inserts ups) (fun v => v) a b -> connected (sv_inserts ups) a b).
    { intros a b C. induction C as [a b [Hab|[_ ->]]|a|a b _ IC|a b c _ IC _ JC].
      - now apply rst_step.
      - apply rst_refl.
      - apply rst_refl.
      - now apply rst_sym.
      - now apply rst_trans with b. }
    assert (M' : forall a b, connected (sv_inserts ups) a b -> mrel n (sv_inserts ups) (fun v => v) a b).
    { intros a b C. induction C as [a b Hab|a|a b _ IC|a b c _ IC _ JC].
      - apply rst_step. auto.
      - apply rst_refl.
      - now apply rst_sym.
      - now apply rst_trans with b. }
    split; auto.
  - apply NoDup_nodup.
  - intros x Hx. apply LM. right. now right.
  - apply LM. now left.
  - apply LM. right. now left.
Qed.
Print Assumptions C56_first_batch.

(* ... but a later batch can separate vertices joined by an earlier one: only the endpoints of
   a batch are compressed, so an old root that is not an endpoint still looks like a root. *)
Definition svr (E : list (nat * nat)) (vs sched : list nat) (pp : (nat -> nat) * (nat -> nat)) :=
  let calls := flat_map (hook_call (snd pp)) E in
  let s := jexec 0 sched (jstart A1 (min_writes calls (fst pp)) vs) in
  if forallb (fun c => negb (jbusy (snd c))) (jthr s)
  then Some ((jpar s, store_prev s (snd pp)), match calls with [] => false | _ => true end) else None.
Fixpoint svl (fuel : nat) (E : list (nat * nat)) (vs sched : list nat) (pp : (nat -> nat) * (nat -> nat)) :=
  match fuel with
  | 0 => None
  | S f => match svr E vs sched pp with
           | Some (pp', true) => svl f E vs sched pp'
           | Some (pp', false) => Some pp'
           | None => None
           end
  end.
Fixpoint svb (fuel : nat) (sched : list nat) (bs : list (list (nat * nat * bool))) (pp : (nat -> nat) * (nat -> nat)) :=
  match bs with
  | [] => Some pp
  | b :: r => match svl fuel (sv_inserts b) (sv_endpoints b) sched pp with
              | Some pp' => svb fuel sched r pp' | None => None end
  end.
Lemma svl_sound E vs sched p0 q0 f : forall pp pp' k, svl f E vs sched pp = Some pp' ->
  sv_loop E vs p0 q0 k (fst pp) (snd pp) true -> exists k', sv_loop E vs p0 q0 k' (fst pp') (snd pp') false.
Proof.
  induction f; intros pp pp' k H L; [discriminate|]. cbn [svl] in H.
  destruct (svr E vs sched pp) as [[pp1 ch]|] eqn:Er; [|discriminate]. unfold svr in Er.
  destruct (forallb _ _) eqn:Ef in Er; [|discriminate]. injection Er as <- Ech.
  assert (X : sv_loop E vs p0 q0 (S k) (jpar (jexec 0 sched (jstart A1 (min_writes (flat_map (hook_call (snd pp)) E) (fst pp)) vs)))
     (store_prev (jexec 0 sched (jstart A1 (min_writes (flat_map (hook_call (snd pp)) E) (fst pp)) vs)) (snd pp)) ch).
  { eapply sv_next; [exact L|]. rewrite <- Ech. apply sv_round_intro; [apply Permutation_refl|].
    intros u pc Hin. rewrite forallb_forall in Ef. specialize (Ef _ Hin). cbn in Ef. destruct pc; try discriminate. eauto. }
  destruct ch.
  - eapply IHf; eauto.
  - injection H as <-. eauto.
Qed.
Lemma svb_sound fuel sched bs : forall pp pp', svb fuel sched bs pp = Some pp' -> sv_batches bs (fst pp) (snd pp) (fst pp') (snd pp').
Proof.
  induction bs as [|b r IH]; intros pp pp' H; cbn [svb] in H.
  - injection H as <-. constructor.
  - destruct (svl _ _ _ _ _) as [pp1|] eqn:El; [|discriminate]. destruct (@svl_sound _ _ _ (fst pp) (snd pp) _ _ _ 0 El) as [k Hk]; [constructor|].
    econstructor; [exists k; exact Hk|now apply IH].
Qed.

Definition sv_sched : list nat := flat_map (fun t => repeat t 20) [0; 1; 2].
Definition sv_history : list (list (nat * nat * bool)) :=
  [ [(3, 5, true); (3, 6, true)]; [(5, 2, true)]; [(6, 1, true)] ].
Theorem C56_batches_refuted : exists bs par prev, sv_batches bs (fun v => v) (fun v => v) par prev /\
  connected (concat (map sv_inserts bs)) 5 6 /\ ~ same_tree par 5 6.
Proof.
  assert (V : match svb 3 sv_sched sv_history (fun v => v, fun v => v) with
              | Some pp => map (fst pp) [1; 2; 3; 5; 6] = [1; 2; 1; 2; 1] | None => False end) by (vm_compute; reflexivity).
  destruct (svb 3 sv_sched sv_history (fun v => v, fun v => v)) as [[par prev]|] eqn:Eb; [|destruct V].
  exists sv_history, par, prev. split; [exact (@svb_sound _ _ _ _ _ Eb)|]. cbn in V. injection V as V1 V2 V3 V5 V6. split.
  - cbn. eapply rst_trans; [apply rst_sym, rst_step; now left|]. apply rst_step. right. now left.
  - intros (r & [R1 [i I]] & [R2 [j J]]).
    assert (X : forall a b k, par a = b -> par b = b -> a <> b -> Nat.iter k par a = r -> r = b).
    { intros a b k Ha Hb Hn. destruct k; simpl; intros <-; [congruence|].
      assert (Y : forall q, Nat.iter q par b = b) by (induction q; simpl; congruence).
      rewrite <- iter_comm, Ha. apply Y. }
    assert (r = 2) by (eapply X; eauto). assert (r = 1) by (eapply (X 6); eauto). congruence.
Qed.
Print Assumptions C56_batches_refuted.

(* a symmetric graph and an initial labelling other than the identity *)
Example C56_graph_example : graph_ok 5 em_out em_out /\
  (forall v, v < 5 -> let par0 := fun v => if v <? 3 then 2 else v in
     par0 v < 5 /\ par0 (par0 v) = par0 v).
Proof. split; [apply C17_graph_example|]. intros v Hv. cbv zeta. do 5 (destruct v as [|v]; [split; [vm_compute; lia|vm_compute; reflexivity]|]). lia. Qed.
(* a run on it, skipping vertices labelled 2 *)
Example C56_run_example :
  match svl 6 (sv_edges 5 em_out (fun v => if v <? 3 then 2 else v) (Some 2)) (seq 0 5) (flat_map (fun t => repeat t 30) [4; 2; 0; 1; 3])
          ((fun v => if v <? 3 then 2 else v), (fun v => if v <? 3 then 2 else v)) with
  | Some pp => map (fst pp) (seq 0 5) = [2; 2; 2; 2; 2] | None => False end.
Proof. vm_compute. reflexivity. Qed.
