(* Facts about the push traversals shared by the algorithms that use other edge functions
   than visit-once. *)
From Verif Require Import Base ListUtil VSModel VSSpec VSProofs EMModel EMSpec EMProofs EMPar EMModes EMProps.

Section Push.
  Variable n : nat.
  Variable outn : nat -> list nat.
  Variable F : list nat.
  Variable U : vset unit.
  Hypothesis HU : Inv n U (plain F).
  Hypothesis Hout : forall s d, s < n -> In d (outn s) -> d < n.

  (* the attempts are exactly the edges out of F *)
  Definition frontier_edges (atts : list attempt) : Prop :=
    (forall a, In a atts -> In (src a) F /\ nth_error (outn (src a)) (snd (tag a)) = Some (dst a)) /\
    (forall u j d, In u F -> nth_error (outn u) j = Some d -> exists a, In a atts /\ src a = u /\ snd (tag a) = j /\ dst a = d) /\
    NoDup (map tag atts).

  Lemma F_lt' u : In u F -> u < n.
  Proof.
    intros H. destruct (i_sub HU) as [_ Hf]. rewrite Forall_forall in Hf. apply (Hf (u, tt)).
    unfold plain. apply in_map_iff. eauto.
  Qed.

  Lemma isIn_F' : isDense U = true -> forall s, s < n -> isIn tt U s = true <-> In s F.
  Proof.
    intros Hd s Hs. rewrite <- (in_plain F s). apply (@isIn_stored unit tt n U (plain F) s); auto. now apply (i_dd HU).
  Qed.

  Lemma forward_edges : isDense U = true -> frontier_edges (flat_map todo (forward_threads n outn U)).
  Proof.
    intros Hd. split; [|split].
    - intros a Ha. apply in_flat_map in Ha as (th & Hth & Ha). unfold forward_threads in Hth.
      apply in_flat_map in Hth as (u & Hu & H). apply in_seq in Hu. destruct (isIn tt U u) eqn:Eu; [|easy].
      apply in_map_iff in H as ([j d] & <- & Hj). simpl in Ha. destruct Ha as [<-|[]]. simpl.
      apply combine_seq_In in Hj as [_ Hj]. rewrite Nat.sub_0_r in Hj. split; auto. apply isIn_F'; auto; lia.
    - intros u j d Hu Hj. exists {| tag := (u, j); src := u; dst := d; active := true |}. split; auto.
      apply in_flat_map. eexists. split.
      + unfold forward_threads. apply in_flat_map. exists u. pose proof (F_lt' _ Hu). split; [apply in_seq; lia|].
        rewrite (proj2 (isIn_F' Hd H) Hu). apply in_map_iff. exists (j, d). split; [reflexivity|].
        apply combine_seq_In. rewrite Nat.sub_0_r. split; auto. lia.
      + simpl. auto.
    - unfold forward_threads. pose proof (seq_NoDup n 0) as Hs. revert Hs. generalize (seq 0 n). intros L.
      induction L as [|u L IH]; intros Hs; simpl; [constructor|]. inversion Hs; subst.
      rewrite flat_map_app, map_app. apply NoDup_app_iff. split; [|split; auto].
      + destruct (isIn tt U u); [|constructor].
        assert (E : map tag (flat_map todo (map (fun jd : nat * nat => {| breaks := false;
             todo := [{| tag := (u, fst jd); src := u; dst := snd jd; active := true |}]; pcs := Test |})
             (combine (seq 0 (length (outn u))) (outn u)))) = map (fun j => (u, j)) (seq 0 (length (outn u)))).
        { generalize (outn u). intros o. generalize 0. induction o as [|x o IHo]; intros k; simpl; auto. now rewrite IHo. }
        rewrite E. apply FinFun.Injective_map_NoDup; [intros a b H; congruence|apply seq_NoDup].
      + intros t Ht1 Ht2. apply in_map_iff in Ht1 as (a & <- & Ha). apply in_flat_map in Ha as (th & Hth & Ha).
        destruct (isIn tt U u); [|easy]. apply in_map_iff in Hth as (jd & <- & _). destruct Ha as [<-|[]].
        apply in_map_iff in Ht2 as (b & Eb & Hb). apply in_flat_map in Hb as (th & Hth & Hb).
        apply in_flat_map in Hth as (u' & Hu' & Hth). destruct (isIn tt U u'); [|easy].
        apply in_map_iff in Hth as (jd' & <- & _). destruct Hb as [<-|[]]. simpl in Eb. congruence.
  Qed.

  Lemma forward_log (log : list attempt) :
    (forall a, In a log -> In a (flat_map todo (forward_threads n outn U))) -> isDense U = true ->
    exists l, NoDup l /\ (forall d, In d l <-> exists a, In a log /\ dst a = d) /\
      built n (vs_dense n (map (fun v => (existsb (fun a => dst a =? v) log, tt)) (seq 0 n))) (plain l).
  Proof.
    intros Hl Hd. destruct (@dense_shows n (fun v => existsb (fun a => dst a =? v) log) (fun d => exists a, In a log /\ dst a = d)) as (l & A & B & C & _).
    - intros v Hv. rewrite existsb_exists. split; intros (a & Ha & E); exists a; split; auto; now apply Nat.eqb_eq.
    - intros v (a & Ha & <-). apply Hl in Ha. apply (forward_edges Hd) in Ha as [H1 H2]. eapply Hout; [now apply F_lt', H1|].
      eapply nth_error_In; eauto.
    - exists l. auto.
  Qed.

  Section Chunk.
    Variable B W M : nat.
    Variable ebs : nat -> nat.
    Hypothesis HB : 1 <= B.
    Hypothesis HW : B <= W.
    Hypothesis HM : W <= M.
    Hypothesis Hd : isDense U = false.
    Hypothesis Hne : exists s d, In s F /\ In d (outn s).
    Notation nghs := (sparse_nghs outn U).
    Notation ts := (chunk_threads outn U B (plain_bdeg B) ebs).

    Lemma chunk_tot : 0 < outEdgeCount B (plain_bdeg B) nghs.
    Proof.
      rewrite (plain_total _ HB HW HM). destruct Hne as (u & d & Hu & Hdd).
      destruct (F_vtx F HU Hd u Hu) as (i & Hi & Ei). apply In_nth_error in Hdd as [j Hj].
      assert (Hin : In (i, j, d) (all_edges nghs)).
      { apply all_edges_In. rewrite (nghs_len outn U), (nghs_nth outn U), Ei; auto. }
      destruct (all_edges nghs); [destruct Hin|simpl; lia].
    Qed.

    Lemma chunk_edges : frontier_edges (flat_map todo ts).
    Proof.
      rewrite (@chunk_atts outn U B W M (plain_bdeg B) ebs HB HW HM chunk_tot). split; [|split].
      - intros a Ha. apply in_map_iff in Ha as ([[i j] x] & <- & He). simpl.
        apply all_edges_In in He as [Hi He]. rewrite (nghs_len outn U) in Hi. rewrite (nghs_nth outn U) in He by auto.
        split; auto. now apply (@vtx_F n).
      - intros u j d Hu Hj. destruct (F_vtx F HU Hd u Hu) as (i & Hi & E).
        exists (to_att U (i, j, d)). split; [|auto]. apply in_map, all_edges_In. rewrite (nghs_len outn U), (nghs_nth outn U), E; auto.
      - rewrite map_map. simpl. apply all_edges_tags.
    Qed.

    Lemma chunk_log (log : list attempt) : (forall a, In a log -> In a (flat_map todo ts)) -> NoDup (map dst log) ->
      exists l, NoDup l /\ (forall d, In d l <-> exists a, In a log /\ dst a = d) /\
        chunk_output n outn U B W M (plain_bdeg B) ebs log = Some (vs_sparse n (plain l)) /\ built n (vs_sparse n (plain l)) (plain l).
    Proof.
      intros Hl Hnd. unfold chunk_output. rewrite chunked_run by auto. pose proof chunk_tot as Htot.
      rewrite (processed_all (plain_bdeg B) ebs nghs HB (ng_pos (plain_bdeg B) ebs nghs HB HW HM Htot)). simpl.
      set (L := filter (fun e => logged log (fst (fst e)) (snd (fst e))) (all_edges nghs)).
      assert (EL : successes (chunk_answer log) (all_edges nghs) = plain (map snd L)).
      { unfold L, successes, chunk_answer, plain. generalize (all_edges nghs). intros es.
        induction es as [|[[i j] x] es IH]; simpl; auto. destruct (logged log i j); simpl; now rewrite IH. }
      rewrite EL. exists (map snd L).
      rewrite (@chunk_atts outn U B W M (plain_bdeg B) ebs HB HW HM Htot) in Hl.
      assert (HLog : forall e, In e (all_edges nghs) -> logged log (fst (fst e)) (snd (fst e)) = true -> In (to_att U e) log).
      { intros [[i j] x] He Hlg. simpl in Hlg. unfold logged in Hlg. apply existsb_exists in Hlg as (a & Ha & E).
        apply andb_true_iff in E as [E1 E2]. apply Nat.eqb_eq in E1, E2.
        pose proof (Hl a Ha) as A1. apply in_map_iff in A1 as ([[i' j'] x'] & <- & He').
        simpl in E1, E2. subst i' j'. apply all_edges_In in He as [_ He]. apply all_edges_In in He' as [_ He'].
        assert (x' = x) by congruence. now subst. }
      assert (HLog' : forall a, In a log -> In (dst a) (map snd L)).
      { intros a Ha. pose proof (Hl a Ha) as A1.
        apply in_map_iff in A1 as ([[i j] x] & <- & He). apply in_map_iff. exists (i, j, x). split; auto.
        apply filter_In. split; auto. simpl. unfold logged. apply existsb_exists. eexists. split; [exact Ha|].
        simpl. now rewrite !Nat.eqb_refl. }
      assert (HLin : forall d, In d (map snd L) <-> exists a, In a log /\ dst a = d).
      { intros d. rewrite in_map_iff. split.
        - intros (e & <- & He). apply filter_In in He as [He Hlg]. exists (to_att U e). split; auto.
        - intros (a & Ha & <-). apply HLog' in Ha. now apply in_map_iff in Ha. }
      assert (HLnd : NoDup (map snd L)).
      { assert (Ht : NoDup (map fst L)).
        { pose proof (all_edges_tags nghs) as Ht. unfold L. clear -Ht. induction (all_edges nghs) as [|e es IH]; simpl; [constructor|].
          inversion Ht; subst. destruct (logged _ _ _); simpl; auto. constructor; auto.
          rewrite in_map_iff. intros (e' & E & He'). apply filter_In in He'. apply H1. rewrite <- E. now apply in_map. }
        assert (Hall : forall e, In e L -> In (to_att U e) log).
        { intros e He. apply filter_In in He as [He Hlg]. auto. }
        clear -Ht Hall Hnd. induction L as [|e L IH]; simpl; [constructor|].
        simpl in Ht. inversion Ht; subst. constructor; [|apply IH; auto; intros; apply Hall; now right].
        rewrite in_map_iff. intros (e' & E & He').
        assert (Ha : In (to_att U e) log) by (apply Hall; now left).
        assert (Hb : In (to_att U e') log) by (apply Hall; now right).
        assert (Heq : to_att U e = to_att U e').
        { revert Ha Hb Hnd. clear -E.
          assert (Hde : dst (to_att U e) = dst (to_att U e')) by (simpl; auto).
          revert Hde. generalize (to_att U e), (to_att U e'). intros a b Hde. clear -Hde. induction log as [|c lg IH]; simpl; [easy|].
          intros H1 H2 H3. inversion H3; subst. destruct H1 as [->|H1], H2 as [->|H2]; auto.
          - exfalso. apply H4. rewrite Hde. now apply in_map.
          - exfalso. apply H4. rewrite <- Hde. now apply in_map. }
        apply H1. apply in_map_iff. exists e'. split; auto. unfold to_att in Heq. congruence. }
      split; auto. split; auto. split; auto. split; [|now right; left]. split.
      - unfold plain. now rewrite map_map, map_id.
      - unfold plain. apply Forall_map. apply Forall_forall. intros d Hdd. simpl. apply HLin in Hdd as (a & Ha & <-).
        apply Hl in Ha. rewrite <- (@chunk_atts outn U B W M (plain_bdeg B) ebs HB HW HM Htot) in Ha.
        apply chunk_edges in Ha as [H1 H2]. eapply Hout; [now apply F_lt', H1|]. eapply nth_error_In; eauto.
    Qed.
  End Chunk.
End Push.
