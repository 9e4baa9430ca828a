(** handleAppendEntries as small steps, and the refinement theorem. *)
From Coq Require Import List Arith Bool Lia.
From Verif Require Import Base Raft_Model Raft_Spec Raft_Abs Raft_InvL Raft_InvL2 Raft_InvC Raft_InvC2 Raft_Inv Raft_Refine.
Import ListNotations.

Lemma aeDecide_spec : forall l lt prev pt es, let c := lcp lt (terms l) in
  match aeDecide l lt prev pt es with
  | AEReject _ => True
  | AEAccept => c = length lt \/ c = length l \/ (prev + length es <= c /\ es <> [] /\ c < length lt)
  | AEWrite base new => c < length lt /\
      ((base = l /\ new = [] /\ c = length l) \/
       (base = firstn c l /\ new = skipn (c - prev) es /\ prev <= c /\ c < prev + length es))
  end.
Proof.
  intros l lt prev pt es c. unfold aeDecide. fold c.
  pose proof (lcp_le_l lt (terms l)) as L1. pose proof (lcp_le_r lt (terms l)) as L2. rewrite terms_length in L2. fold c in L1, L2.
  destruct (Nat.eqb_spec c (length lt)); [auto|].
  destruct (logsAreMismatched l prev pt es); [auto|].
  destruct (Nat.eqb_spec (length es) 0) as [|Hes]; [auto|].
  destruct (Nat.eqb_spec c (length l)) as [Hc|Hc]; cbn [negb andb].
  - destruct (Nat.leb_spec (S prev) (S (length l))); cbn [andb].
    + destruct (Nat.leb_spec (length es) (S (length l) - S prev)).
      * split; [lia|]. left; auto.
      * destruct (Nat.ltb_spec (S (length l)) (S prev)); [auto|].
        split; [lia|]. right. rewrite Hc, firstn_all. split; auto. split; [f_equal; lia|]. lia.
    + destruct (Nat.ltb_spec (S (length l)) (S prev)); [auto|lia].
  - destruct (Nat.ltb_spec c prev); [auto|]. destruct (Nat.ltb_spec (S c) (S prev)); [auto|].
    destruct (Nat.leb_spec (prev + length es) c).
    + right; right. split; auto. split; [|lia]. intros ->. simpl in Hes. lia.
    + split; [lia|]. right. repeat split; auto; lia.
Qed.

Lemma eff_disks_wal : forall (h : nat -> list entry) k d,
  eff_disks d (map (fun k => Wal (h k)) (seq 0 (S k))) = mkD (d_p d) (h k).
Proof.
  intros h k d. rewrite seq_S, map_app, eff_disks_app. simpl.
  assert (X : forall xs d, d_p (eff_disks d (map (fun k => Wal (h k)) xs)) = d_p d).
  { induction xs as [|x xs IH]; intros d0; auto. cbn [map]. change (eff_disks d0 (?a :: ?r)) with (eff_disks (eff_disk d0 a) r). rewrite IH. auto. }
  rewrite X. auto.
Qed.
Lemma eff_msgs_wal : forall (h : nat -> list entry) xs, eff_msgs (map (fun k => Wal (h k)) xs) = [].
Proof. induction xs; simpl; auto. Qed.

Lemma lcp_firstn : forall k a, k <= length a -> lcp a (firstn k a) = k.
Proof.
  induction k as [|k IH]; intros [|x a] H; simpl in *; try lia; auto.
  rewrite Nat.eqb_refl, IH; lia.
Qed.

Section refine2.
Variable cfg : list nat.
Variable strong : bool.
Variable n : nat.
Notation nstep := (nstep cfg strong n).
Notation nstar := (nstar cfg strong n).
Notation covers := (covers cfg strong n).
Variable f : nat -> node.
Variable net : list msg.
Variable gh : ghost.
Variable m : mem.
Variable d : disk.
Hypothesis I : InvL cfg f net gh.
Hypothesis En : f n = mkN m d.
Hypothesis IC : strong = true -> InvC cfg f net gh.

Let HN : nodeL cfg gh n (mkN m d).
Proof. rewrite <- En. apply I. Qed.

Section ae.
Variables (from : pid) (to T : nat) (lt : list nat) (prev pt : nat) (es : list entry) (lci mc : nat).
Hypothesis Hin : In (AppendEntries from to T lt prev pt es lci mc) net.
Hypothesis Hto : to = n.
Let c := lcp lt (terms (d_log d)).

Lemma ae_prologue :
  let p := m_p m in
  let early := p_commit p <? Nat.min c lci in
  let p1 := if early then set_commit (Nat.min c lci) p else p in
  p_term p <= T ->
  let p2 := if p_mc p1 <? mc then set_mc mc p1 else p1 in
  let e2 := if p_mc p1 <? mc then [SaveMC p2] else [] in
  let p3 := if p_term p <? T then set_term_vote T None p2 else p2 in
  let e3 := if p_term p <? T then [SaveTerm p3] else [] in
  let m3 := mkM p3 Follower (m_inc m) (m_votes m) (if p_term p <? T then 0 else m_noop m) (m_peers m) in
  covers (mkN m d) net (e2 ++ e3) m3 /\ d_log (eff_disks d (e2 ++ e3)) = d_log d /\
  p_term (d_p (eff_disks d (e2 ++ e3))) = T /\ eff_msgs (e2 ++ e3) = [] /\ p_term p3 = T /\ p_commit p3 = p_commit p1.
Proof.
  destruct (proj2 (proj2 I) _ Hin) as (A1 & A2 & A3 & A4 & A5 & A6 & A7 & A8 & A9 & A10).
  pose proof (nl_mc _ _ _ _ HN) as (Hm1 & Hm2). pose proof (nl_le _ _ _ _ HN) as Hle.
  assert (Hrole : p_term (m_p m) = T -> m_role m <> Leader).
  { intros Ht Hr. destruct (nl_lead _ _ _ _ HN Hr) as (L1 & _). red_n. rewrite Ht, A1 in L1. injection L1 as ->.
    apply A10. simpl. auto. }
  assert (Hcom : forall m0 d0, d_log d0 = d_log d -> T <= p_term (m_p m0) ->
     (p_commit (m_p m) <? Nat.min c lci = true) -> p_commit (m_p m0) = p_commit (m_p m) ->
     nstep (mkN m0 d0) net (mkN (set_p (set_commit (Nat.min c lci) (m_p m0)) m0) d0) net).
  { intros m0 d0 Hd Ht He Hc. apply Nat.ltb_lt in He. eapply ns_commitAE; eauto; try lia.
    rewrite Hd. fold c. lia. }
  clear HN En. subst mc. destruct m as [[pt0 pv pm pc pa] r i vs np ps]. destruct d as [[dt0 dv dm dc da] dl]. red_n.
  cbv zeta. intros HT.
  assert (Epm : p_mc (if pc <? Nat.min c lci then set_commit (Nat.min c lci) (mkP pt0 pv pm pc pa) else mkP pt0 pv pm pc pa) = pm)
    by (destruct (pc <? Nat.min c lci); auto).
  rewrite !Epm. red_n.
  destruct (Nat.ltb_spec pt0 T) as [Hlt|Hge].
  - (* higher term: the MC is always newer too *)
    destruct (Nat.ltb_spec pm T); [|lia].
    split; [|split; [|split; [|split; [|split]]]].
    + apply covers_saveterm; auto. simpl. rewrite app_nil_r. red_n.
      eapply nstar_step; [apply (ns_term _ _ _ _ _ _ _ _ 0 _ _ _ T); red_n; auto|]. red_n.
      eapply nstar_step; [apply ns_save|]. red_n.
      eapply nstar_step; [apply (ns_mc _ _ _ _ _ _ T); red_n; auto; discriminate|]. red_n.
      destruct (pc <? Nat.min c lci) eqn:Ee.
      * eapply nstar_step; [eapply Hcom; red_n; auto|]. red_n.
        apply nstar_one. apply ns_save.
      * apply nstar_one. apply ns_save.
    + simpl; auto.
    + simpl. auto.
    + simpl; auto.
    + simpl; auto.
    + destruct (pc <? Nat.min c lci); auto.
  - assert (pt0 = T) by lia. subst pt0. rewrite app_nil_r.
    assert (Hl : nstep (mkN (mkM (mkP T pv pm pc pa) r i vs np ps) (mkD (mkP dt0 dv dm dc da) dl)) net
                       (mkN (mkM (mkP T pv pm pc pa) Follower i vs np ps) (mkD (mkP dt0 dv dm dc da) dl)) net).
    { apply ns_local; auto. }
    destruct (Nat.ltb_spec pm T) as [Hmc|Hmc].
    + split; [|split; [|split; [|split; [|split]]]].
      * apply covers_one; auto. simpl. rewrite app_nil_r. red_n.
        eapply nstar_step; [exact Hl|].
        eapply nstar_step; [apply ns_save|]. red_n.
        eapply nstar_step; [apply (ns_mc _ _ _ _ _ _ T); red_n; auto; discriminate|]. red_n.
        destruct (pc <? Nat.min c lci) eqn:Ee.
        -- eapply nstar_step; [eapply Hcom; red_n; auto|]. red_n. apply nstar_one. apply ns_save.
        -- apply nstar_one. apply ns_save.
      * simpl; auto.
      * simpl. destruct (pc <? Nat.min c lci); auto.
      * simpl; auto.
      * destruct (pc <? Nat.min c lci); auto.
      * destruct (pc <? Nat.min c lci); auto.
    + simpl. split; [|split; [|split; [|split; [|split]]]]; auto; try lia.
      * apply covers_nil; auto. eapply nstar_step; [exact Hl|].
        destruct (pc <? Nat.min c lci) eqn:Ee; [|apply nstar_refl].
        apply nstar_one. eapply Hcom; red_n; auto.
      * destruct (pc <? Nat.min c lci); auto.
Qed.

(** The log after an accepted write is a prefix of the leader's. *)
Lemma ae_newlog : forall base new,
  c < length lt ->
  (base = d_log d /\ new = [] /\ c = length (d_log d)) \/
  (base = firstn c (d_log d) /\ new = skipn (c - prev) es /\ prev <= c /\ c < prev + length es) ->
  lcp lt (terms (base ++ new)) = length (base ++ new) /\ c <= length (base ++ new).
Proof.
  intros base new Hc [(-> & -> & E)|(-> & -> & E1 & E2)].
  - rewrite app_nil_r. fold c. lia.
  - pose proof (proj2 (proj2 I) _ Hin) as X.
    pose proof (ae_common _ f gh n _ _ _ _ _ _ _ _ _ _ HN (proj1 (proj2 I)) X) as HP. red_n. fold c in HP.
    simpl in X. destruct X as (X1 & X2 & X3 & X4 & X5 & X6 & X7 & X8 & X9).
    assert (El : firstn c (d_log d) ++ skipn (c - prev) es = firstn (prev + length es) (tl gh T)).
    { destruct HP as (P1 & P2 & P3). rewrite P3.
      replace (prev + length es) with (c + (prev + length es - c)) by lia. rewrite firstn_plus. f_equal.
      rewrite X8 at 1. rewrite skipn_firstn_comm, skipn_skipn. replace (c - prev + prev) with c by lia.
      f_equal. lia. }
    rewrite El. rewrite firstn_length_le by lia. split; [|lia].
    assert (Et : terms (firstn (prev + length es) (tl gh T)) = firstn (prev + length es) lt).
    { transitivity (firstn (prev + length es) (terms (firstn (length lt) (tl gh T)))).
      - rewrite !terms_firstn, firstn_firstn. f_equal. lia.
      - rewrite <- X5. auto. }
    rewrite Et. apply lcp_firstn. auto.
Qed.

Lemma ae_commit_le : strong = true -> c < length lt -> p_term (m_p m) <= T -> p_commit (m_p m) <= c.
Proof.
  intros Hs Hc HT. destruct (IC Hs) as (CN & CG & CM). pose proof (CN n) as CNn. rewrite En in CNn.
  pose proof (proj2 (proj2 I) _ Hin) as X. pose proof (nc_cm _ _ _ _ _ _ CNn) as Z. red_n.
  destruct Z as [->|(T0 & i0 & B1 & B2 & B3 & B4)]; [lia|].
  assert (HldT : ld gh T <> None) by (simpl in X; destruct X as (X & _); congruence).
  eapply ae_max; eauto.
  eapply pre_trans; [exact B4|]. apply pre_sym. eapply pre_le; [|exact B2].
  eapply chosen_later; eauto. lia.
Qed.

Lemma covers_write : forall m3 d3 base new,
  m_role m3 = Follower -> p_term (m_p m3) = T -> p_term (d_p d3) = T -> d_log d3 = d_log d ->
  c < length lt ->
  (base = d_log d /\ new = [] /\ c = length (d_log d)) \/
  (base = firstn c (d_log d) /\ new = skipn (c - prev) es /\ prev <= c /\ c < prev + length es) ->
  let w := if length new =? 0 then [] else walWrites base new in
  covers (mkN m3 d3) net w m3 /\ eff_disks d3 w = mkD (d_p d3) (base ++ new) /\ eff_msgs w = [].
Proof.
  intros m3 d3 base new Hr Ht Hd Hl Hc Hcase w. subst w.
  destruct (Nat.eqb_spec (length new) 0) as [E0|E0].
  { assert (new = []) by (destruct new; simpl in E0; [auto|lia]). subst new.
    split; [apply covers_refl|]. split; [|auto]. simpl. rewrite app_nil_r.
    destruct d3 as [dp dl]. red_n. subst dl. f_equal.
    destruct Hcase as [(-> & _)|(-> & Hn & E1 & E2)]; auto.
    assert (length (skipn (c - prev) es) = 0) by (rewrite <- Hn; auto).
    rewrite skipn_length in H. lia. }
  destruct Hcase as [(_ & -> & _)|(-> & -> & E1 & E2)]; [simpl in E0; lia|].
  set (new := skipn (c - prev) es) in *.
  assert (Hw : forall k, nstar (mkN m3 d3) net (mkN m3 (mkD (d_p d3) (firstn c (d_log d) ++ firstn k new))) net).
  { intros k. apply nstar_one.
    pose proof (ns_write cfg strong n m3 d3 net from to lt prev pt es lci mc k) as X. cbv zeta in X.
    rewrite Hl, Ht in X. apply X; auto. }
  unfold walWrites. split; [split; [|split]|split].
  - intros e1 e2 E _. exists m3. split; auto. cbn [n_disk].
    assert (E1' : e1 = map (fun k => Wal (firstn c (d_log d) ++ firstn k new)) (firstn (length e1) (seq 0 (S (length new))))).
    { rewrite <- firstn_map, E. rewrite firstn_app, Nat.sub_diag, firstn_all. simpl. rewrite app_nil_r. auto. }
    destruct e1 as [|x e1]; [simpl; rewrite app_nil_r; apply nstar_refl|].
    assert (Hlen : length (x :: e1) <= S (length new)).
    { pose proof (f_equal (@length effect) E) as Z. rewrite map_length, seq_length, app_length in Z. lia. }
    rewrite E1'. simpl length in Hlen |- *.
    assert (Efs : firstn (S (length e1)) (seq 0 (S (length new))) = seq 0 (S (length e1))).
    { replace (S (length new)) with (S (length e1) + (length new - length e1)) by lia.
      rewrite seq_app, firstn_app, seq_length, Nat.sub_diag, firstn_O, app_nil_r.
      apply firstn_all2. rewrite seq_length. lia. }
    simpl length. rewrite Efs.
    rewrite (eff_disks_wal (fun k => firstn c (d_log d) ++ firstn k new)).
    rewrite (eff_msgs_wal (fun k => firstn c (d_log d) ++ firstn k new)), app_nil_r. apply Hw.
  - reflexivity.
  - rewrite (eff_disks_wal (fun k => firstn c (d_log d) ++ firstn k new)).
    rewrite (eff_msgs_wal (fun k => firstn c (d_log d) ++ firstn k new)), app_nil_r. apply Hw.
  - rewrite (eff_disks_wal (fun k => firstn c (d_log d) ++ firstn k new)). rewrite firstn_all. auto.
  - apply (eff_msgs_wal (fun k => firstn c (d_log d) ++ firstn k new)).
Qed.

Lemma commit_disk : forall p l q e d0, commitWhatWeCan p l = (q, e) -> p_term (d_p d0) = p_term p ->
  p_term q = p_term p /\ p_term (d_p (eff_disks d0 e)) = p_term p /\ d_log (eff_disks d0 e) = d_log d0 /\ eff_msgs e = [].
Proof.
  intros p l q e d0. unfold commitWhatWeCan. destruct (_ <? _); intros [= <- <-] H; simpl; auto.
Qed.

Lemma covers_ae : forall m' effs,
  handleAppendEntries n (mkN m d) from T lt prev pt es lci mc = (m', effs) -> covers (mkN m d) net effs m'.
Proof.
  intros m' effs. unfold handleAppendEntries. red_n. fold c.
  destruct (T <? 1); [intros [= <- <-]; apply covers_refl|].
  pose proof (mc_le cfg n f net gh m d I En) as Hmle.
  set (p := m_p m) in *.
  destruct (Nat.ltb_spec T (p_term p)) as [Hold|HT].
  - (* stale term: rejected, though its commit index may be used *)
    set (ack := Ack (n, m_inc m) (fst from) from T (p_term p) true false c (length (d_log d)) (p_mc p)).
    assert (Hack : covers (mkN m d) net [Send ack] m).
    { apply covers_one; auto. simpl. apply nstar_one.
      pose proof (ns_ack cfg strong n m d net from to T lt prev pt es lci mc (p_term p) true false c (p_mc p) Hin) as X.
      cbv zeta in X. apply X; auto; try discriminate. intros; lia. }
    destruct (p_commit p <? Nat.min c lci) eqn:Ee.
    + destruct (commitWhatWeCan (set_commit (Nat.min c lci) p) (d_log d)) as (q, e) eqn:Ec.
      intros Hh. apply pair_inj in Hh. destruct Hh as (-> & ->).
      eapply covers_app; [exact Hack|]. simpl eff_disks. simpl eff_msgs.
      eapply covers_mem; [| |].
      2:{ apply nstar_one. apply Nat.ltb_lt in Ee.
          eapply (ns_commitAE cfg strong n m d (net ++ [ack]) from to T lt prev pt es lci mc (Nat.min c lci)); fold p; try lia.
          apply in_app_iff; auto. }
      * reflexivity.
      * exact (commit_covers cfg strong n (set_p (set_commit (Nat.min c lci) p) m) d (net ++ [ack]) q e Ec).
    + intros Hh. apply pair_inj in Hh. destruct Hh as (-> & ->).
      replace (set_p p m) with m by (subst p; destruct m; auto). exact Hack.
  - pose proof ae_prologue as PR. cbv zeta in PR. fold p in PR. specialize (PR HT).
    set (early := p_commit p <? Nat.min c lci) in *.
    set (p1 := if early then set_commit (Nat.min c lci) p else p) in *.
    set (p2 := if p_mc p1 <? mc then set_mc mc p1 else p1) in *.
    set (e2 := if p_mc p1 <? mc then [SaveMC p2] else []) in *.
    set (p3 := if p_term p <? T then set_term_vote T None p2 else p2) in *.
    set (e3 := if p_term p <? T then [SaveTerm p3] else []) in *.
    set (m3 := mkM p3 Follower (m_inc m) (m_votes m) (if p_term p <? T then 0 else m_noop m) (m_peers m)) in *.
    destruct PR as (PR1 & PR2 & PR3 & PR4 & PR5 & PR6).
    set (d3 := eff_disks d (e2 ++ e3)) in *.
    assert (Hack : forall rej gap, (strong = true -> rej = false -> c = length lt \/ c = length (d_log d)) ->
      covers (mkN m3 d3) net [Send (Ack (n, m_inc m) (fst from) from T T rej gap c (length (d_log d)) (p_mc p))] m3).
    { intros rej gap Hs. apply covers_one; auto. simpl. apply nstar_one. rewrite <- PR2.
      pose proof (ns_ack cfg strong n m3 d3 net from to T lt prev pt es lci mc T rej gap c (p_mc p) Hin) as X.
      cbv zeta in X. rewrite PR2 in *. fold c in X. apply X; auto. lia. }
    assert (Hfin : forall x, covers (mkN m3 d3) net [Send x] m3 ->
      (if early then let '(q, e) := commitWhatWeCan (m_p m3) (d_log d) in (set_p q m3, (e2 ++ e3 ++ [Send x]) ++ e)
       else (m3, e2 ++ e3 ++ [Send x])) = (m', effs) -> covers (mkN m d) net effs m').
    { intros x Hx Hh.
      assert (Hb : covers (mkN m d) net (e2 ++ e3 ++ [Send x]) m3).
      { rewrite app_assoc. eapply covers_app; [exact PR1|]. cbn [n_disk]. fold d3. rewrite PR4, app_nil_r. exact Hx. }
      destruct early.
      - destruct (commitWhatWeCan (m_p m3) (d_log d)) as (q, e) eqn:Ec. apply pair_inj in Hh. destruct Hh as (-> & ->).
        eapply covers_app; [exact Hb|]. apply commit_covers.
        cbn [n_disk]. rewrite app_assoc, eff_disks_app. fold d3. simpl eff_disks. rewrite PR2. exact Ec.
      - apply pair_inj in Hh. destruct Hh as (-> & ->). exact Hb. }
    pose proof (aeDecide_spec (d_log d) lt prev pt es) as DS. cbv zeta in DS. fold c in DS.
    destruct (aeDecide (d_log d) lt prev pt es) as [gap| |base new].
    + apply Hfin. apply Hack. intros; discriminate.
    + apply Hfin. apply Hack. intros Hs _. destruct DS as [DS|[DS|(D1 & D2 & D3)]]; auto.
      exfalso. destruct (IC Hs) as (_ & _ & CM). pose proof (CM _ Hin) as X. cbn [msgC] in X. destruct X as (X & _).
      specialize (X D2). lia.
    + destruct DS as (Hc & Hcase).
      destruct (ae_newlog base new Hc Hcase) as (N1 & N2).
      destruct (covers_write m3 d3 base new eq_refl PR5 PR3 PR2 Hc Hcase) as (W1 & W2 & W3).
      set (w := if length new =? 0 then [] else walWrites base new) in *.
      set (l' := base ++ new) in *.
      set (p4 := if p_commit p3 <? lci then set_commit (Nat.min lci (length l')) p3 else p3).
      destruct (commitWhatWeCan p4 l') as (p5, e5) eqn:Ec.
      intros Hh. apply pair_inj in Hh. destruct Hh as (-> & ->).
      assert (T4 : p_term p4 = T) by (subst p4; destruct (p_commit p3 <? lci); auto).
      rewrite app_assoc. eapply covers_app; [exact PR1|]. cbn [n_disk]. fold d3. rewrite PR4, app_nil_r.
      eapply covers_app; [exact W1|]. cbn [n_disk]. rewrite W2, W3, app_nil_r.
      set (d4 := mkD (d_p d3) l').
      eapply covers_mem with (m1 := set_p p4 m3); [reflexivity| |].
      { subst p4. destruct (Nat.ltb_spec (p_commit p3) lci) as [Hl|]; [|apply nstar_refl].
        apply nstar_one.
        eapply (ns_commitAE cfg strong n m3 d4 net from to T lt prev pt es lci mc (Nat.min lci (length l'))); auto; try lia.
        - subst m3; red_n. lia.
        - cbn [d_log d4]. rewrite N1. lia.
        - intros Hs. subst m3; red_n. pose proof (ae_commit_le Hs Hc HT) as Z. fold p in Z.
          assert (p_commit p3 <= c) by (rewrite PR6; subst p1; destruct early; red_n; lia). lia. }
      destruct (commit_disk p4 l' p5 e5 d4 Ec) as (K1 & K2 & K3 & K4); [cbn; lia|].
      eapply covers_app.
      * exact (commit_covers cfg strong n (set_p p4 m3) d4 net p5 e5 Ec).
      * cbn [n_disk]. rewrite K4, app_nil_r. apply covers_one; auto. simpl. apply nstar_one.
        pose proof (ns_ack cfg strong n (set_p p5 m3) (eff_disks d4 e5) net from to T lt prev pt es lci mc T false false
          (if (length l' =? length lt) && (lastTerm l' =? last lt 0) then length l' else lcp lt (terms l')) (p_mc p) Hin) as X.
        cbv zeta in X. rewrite K3 in X. cbn [d_log d4] in X.
        apply X; auto; try discriminate.
        -- intros _. cbn [m_p set_p]. lia.
        -- lia.
Qed.
End ae.

(** Any handler. *)
Lemma covers_handle : forall ev m' effs,
  handle cfg net n (mkN m d) ev = Some (m', effs) ->
  (strong = true -> unclipped (mkG f net) n ev /\ freshAck (mkG f net) n ev /\ onePeerPerName cfg (mkG f net) n ev) ->
  covers (mkN m d) net effs m'.
Proof.
  intros ev m' effs Hh G. destruct ev as [| | |k b1 b2|cmds cnt|to prev cnt|to| |q]; cbn [handle] in Hh.
  - apply Some_pair_inj in Hh. destruct Hh as (-> & ->). apply covers_refl.
  - eapply covers_elect; eauto.
  - unfold beginPreVote in Hh. red_n. destruct (is_leader (m_role m)); [discriminate|]. injection Hh as <- <-.
    apply covers_nil; auto. apply nstar_one. destruct m. apply ns_local; auto.
  - destruct (nth_error net k) as [x|] eqn:Ek; [|discriminate]. pose proof (nth_error_In _ _ Ek) as Hin.
    destruct (Nat.eqb_spec (msg_to x) n) as [Hto|]; [|discriminate].
    destruct x as [from to t li lt mc|from to c g ft t mc|from to T lt prev pt es lci mc|from to l st t rej gap lcri li mc]; cbn [receive] in Hh; simpl in Hto.
    + injection Hh as Hh. eapply covers_rv; eauto.
    + eapply covers_vote; eauto.
    + injection Hh as Hh. eapply covers_ae; eauto.
    + pose proof Hh as Hh0. injection Hh as Hh. eapply covers_ack; eauto.
      * intros Hs E1 E2 E3. destruct (G Hs) as (_ & G2 & _). cbn [freshAck g_net g_node] in G2. rewrite En in G2. red_n.
        eapply G2; eauto.
      * intros Hs Hr. destruct (G Hs) as (_ & _ & G3). cbn [onePeerPerName g_net g_node] in G3. rewrite En in G3.
        eapply G3; eauto. cbn [handle]. rewrite Ek. cbn [msg_to]. subst to. rewrite Nat.eqb_refl. exact Hh0.
  - eapply covers_propose; eauto. intros Hs. apply (G Hs).
  - unfold leaderSend in Hh. red_n.
    destruct (negb (is_leader (m_role m)) || (length (d_log d) <=? prev) || (cnt =? 0) || (to =? n)) eqn:E; [discriminate|].
    apply orb_false_elim in E. destruct E as (E & E4). apply orb_false_elim in E. destruct E as (E & E3).
    apply orb_false_elim in E. destruct E as (E1 & E2).
    apply negb_false_iff in E1. apply Nat.leb_gt in E2. apply Nat.eqb_neq in E4.
    injection Hh as <- <-. apply covers_one; auto. simpl. apply nstar_one.
    apply sendAE_step; auto; [destruct (m_role m); simpl in E1; congruence|lia|].
    intros Hs. destruct (G Hs) as (G1 & _). cbn [unclipped] in G1. unfold logOf in G1. cbn [g_node] in G1. rewrite En in G1. auto.
  - unfold leaderHeartbeat in Hh. red_n.
    destruct (negb (is_leader (m_role m)) || (to =? n)) eqn:E; [discriminate|].
    apply orb_false_elim in E. destruct E as (E1 & E2). apply negb_false_iff in E1. apply Nat.eqb_neq in E2.
    injection Hh as <- <-. apply covers_one; auto. simpl. apply nstar_one.
    unfold newHeartbeat.
    pose proof (ns_sendAE cfg strong n m d net 0 0 0 to) as X. cbv zeta in X. simpl firstn in X. apply X; auto; try lia; try congruence.
    destruct (m_role m); simpl in E1; congruence.
  - unfold leaderStepDown in Hh. red_n. destruct (is_leader (m_role m)); [|discriminate].
    unfold becomeFollower in Hh. rewrite Nat.ltb_irrefl in Hh. cbn [orb app] in Hh. injection Hh as <- <-.
    apply covers_one; auto. simpl. rewrite app_nil_r. red_n. destruct m as [p r i vs np ps]. red_n.
    eapply nstar_step; [apply (ns_local cfg strong n p r Follower i vs vs np 0 ps ps); auto|].
    apply nstar_one. apply ns_save.
  - unfold peerGone in Hh. red_n. injection Hh as <- <-. apply covers_nil; auto. apply nstar_one.
    destruct m as [p r i vs np ps]. red_n. apply ns_local; auto. intros x j Hx. apply filter_In in Hx. tauto.
Qed.
End refine2.

(** The refinement theorem. *)
Theorem step_refines : forall cfg strong g n ev cut g' gh,
  InvL cfg (g_node g) (g_net g) gh -> (strong = true -> InvC cfg (g_node g) (g_net g) gh) ->
  crashOk cfg g n ev cut ->
  (strong = true -> unclipped g n ev /\ freshAck g n ev /\ onePeerPerName cfg g n ev) ->
  step cfg g n ev cut = Some g' ->
  nstar cfg strong n (g_node g n) (g_net g) (g_node g' n) (g_net g') /\ (forall k, k <> n -> g_node g' k = g_node g k).
Proof.
  intros cfg strong [f net] n ev cut g' gh I IC Hcr G Hs. cbn [g_node g_net] in *.
  unfold step in Hs. cbn [g_node g_net] in Hs.
  destruct (handle cfg net n (f n) ev) as [(m', effs)|] eqn:Eh; [|discriminate].
  pose proof (fun m d (E : f n = mkN m d) => covers_handle cfg strong n f net gh m d I E IC ev m' effs) as C.
  destruct (f n) as [m d] eqn:En. specialize (C m d eq_refl Eh G). red_n.
  destruct C as (C1 & C2 & C3). red_n. destruct cut as [k|].
  - injection Hs as <-. cbn [g_node g_net]. split; [|intros; apply upd_other; auto]. rewrite upd_same.
    destruct (Hcr m' effs) as [E|E].
    { cbn [g_node g_net]. rewrite En. auto. }
    + rewrite E. simpl. rewrite app_nil_r. apply nstar_one, ns_crash.
    + destruct (C1 (firstn k effs) (skipn k effs)) as (m'' & Hm & Hst); auto.
      { symmetry; apply firstn_skipn. }
      eapply nstar_trans; [exact Hst|]. rewrite <- Hm. apply nstar_one, ns_crash.
  - injection Hs as <-. cbn [g_node g_net]. split; [|intros; apply upd_other; auto]. rewrite upd_same. exact C3.
Qed.

(** Reachable states satisfy the invariants, with a history that grows. *)
Theorem reach_inv : forall cfg (ok : gstate -> nat -> nevent -> option nat -> Prop) g, (forall g n ev cut, ok g n ev cut -> crashOk cfg g n ev cut) ->
  reaches cfg ok ginit g -> exists gh, InvL cfg (g_node g) (g_net g) gh.
Proof.
  intros cfg ok g Hok H. remember ginit as g0 eqn:E0. induction H as [g|g1 g2 g3 n ev cut H IH Ho Hs].
  - subst. exists gh0. apply InvL_init.
  - destruct (IH E0) as (gh & I).
    destruct (step_refines cfg false g2 n ev cut g3 gh I) as (R1 & R2); auto; try discriminate.
    destruct (nstar_inv cfg _ _ _ _ _ _ R1 (g_node g2) (g_node g3) gh I) as (gh' & _ & I' & _); eauto.
Qed.

Lemma reach_ext : forall cfg (ok : gstate -> nat -> nevent -> option nat -> Prop) g1 g2 gh, (forall g n ev cut, ok g n ev cut -> crashOk cfg g n ev cut) ->
  reaches cfg ok g1 g2 -> InvL cfg (g_node g1) (g_net g1) gh ->
  exists gh', gmono gh gh' /\ InvL cfg (g_node g2) (g_net g2) gh'.
Proof.
  intros cfg ok g1 g2 gh Hok H I. induction H as [g|g1 g2 g3 n ev cut H IH Ho Hs].
  - exists gh. split; auto. apply gmono_refl.
  - destruct (IH I) as (gh1 & M1 & I1).
    destruct (step_refines cfg false g2 n ev cut g3 gh1 I1) as (R1 & R2); auto; try discriminate.
    destruct (nstar_inv cfg _ _ _ _ _ _ R1 (g_node g2) (g_node g3) gh1 I1) as (gh' & M2 & I' & _); eauto.
    exists gh'. split; auto. eapply gmono_trans; eauto.
Qed.

Lemma reach_ext_strong : forall cfg g1 g2 gh,
  reaches cfg (guarded cfg) g1 g2 -> InvL cfg (g_node g1) (g_net g1) gh -> InvC cfg (g_node g1) (g_net g1) gh ->
  exists gh', gmono gh gh' /\ InvL cfg (g_node g2) (g_net g2) gh' /\ InvC cfg (g_node g2) (g_net g2) gh'.
Proof.
  intros cfg g1 g2 gh H I C. induction H as [g|g1 g2 g3 n ev cut H IH Ho Hs].
  - exists gh. split; auto. apply gmono_refl.
  - destruct (IH I C) as (gh1 & M1 & I1 & C1). destruct Ho as (O1 & O2 & O3 & O4).
    destruct (step_refines cfg true g2 n ev cut g3 gh1 I1) as (R1 & R2); auto.
    destruct (nstar_inv cfg _ _ _ _ _ _ R1 (g_node g2) (g_node g3) gh1 I1) as (gh' & M2 & I' & C'); eauto.
    exists gh'. split; [eapply gmono_trans; eauto|]. split; auto.
Qed.
