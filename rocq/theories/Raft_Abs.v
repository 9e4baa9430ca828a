(** Small steps of one node, coarse enough to carry the Raft argument and fine
    enough that every handler of Raft_Model, cut anywhere or not, is a sequence
    of them (Raft_Refine).  [strong] adds the conditions that hold only under the
    guards G1-G3 of Raft_Spec. *)
From Coq Require Import List Arith Bool Lia.
From Verif Require Import Base Raft_Model Raft_Spec.
Import ListNotations.

Definition upToDate (l : list entry) (li lt : nat) : Prop :=
  l = [] \/ lastTerm l < lt \/ (lastTerm l = lt /\ length l <= li).

Section abs.
Variable cfg : list nat.
Variable strong : bool.
Variable n : nat.

Inductive nstep : node -> list msg -> node -> list msg -> Prop :=
| ns_save : forall m d net,
    nstep (mkN m d) net (mkN m (mkD (m_p m) (d_log d))) net
| ns_local : forall p r r' i vs vs' np np' ps ps' d net,
    r' = r \/ r' = Follower ->
    (forall v, In (v, true) vs' -> In (v, true) vs) ->
    (NoDup (map fst vs) -> NoDup (map fst vs')) ->
    (forall q k, In (q, k) ps' -> k = 0 \/ In (q, k) ps) ->
    nstep (mkN (mkM p r i vs np ps) d) net (mkN (mkM p r' i vs' np' ps') d) net
| ns_elect : forall p r i vs np ps ps' d net t,
    r <> Leader -> In n cfg -> 1 < length cfg ->
    t = (if is_foll r then S (p_term p) else p_term p) ->
    (forall q k, In (q, k) ps' -> k = 0) ->
    nstep (mkN (mkM p r i vs np ps) d) net
          (mkN (mkM (set_term_vote t (Some (n, i)) p) Candidate i [] 0 ps') d) net
| ns_sendRV : forall m d net to,
    m_role m = Candidate -> to <> n ->
    nstep (mkN m d) net (mkN m d)
      (net ++ [RequestVote (n, m_inc m) to (p_term (m_p m)) (length (d_log d)) (lastTerm (d_log d)) (p_mc (m_p m))])
| ns_term : forall p r i vs np np' ps d net t,
    p_term p < t ->
    nstep (mkN (mkM p r i vs np ps) d) net
          (mkN (mkM (set_term_vote t None p) Follower i vs np' ps) d) net
| ns_mc : forall m d net c,
    m_role m <> Leader -> c <= p_term (d_p d) ->
    nstep (mkN m d) net (mkN (set_p (set_mc c (m_p m)) m) d) net
| ns_vote : forall m d net c,
    m_role m = Follower -> p_vote (m_p m) = None \/ p_vote (m_p m) = Some c ->
    let p' := set_term_vote (p_term (m_p m)) (Some c) (m_p m) in
    nstep (mkN m d) net (mkN (set_p p' m) (mkD p' (d_log d))) net
| ns_sendVote : forall m d net c li lt mc ft mc',
    In (RequestVote c n (p_term (m_p m)) li lt mc) net ->
    upToDate (d_log d) li lt ->
    p_term (d_p d) = p_term (m_p m) -> p_vote (d_p d) = Some c ->
    mc' <= p_term (m_p m) ->
    nstep (mkN m d) net (mkN m d)
      (net ++ [Vote (n, m_inc m) (fst c) c true ft (p_term (m_p m)) mc'])
| ns_sendNo : forall m d net c ft t mc,
    mc <= t ->
    nstep (mkN m d) net (mkN m d) (net ++ [Vote (n, m_inc m) (fst c) c false ft t mc])
| ns_count : forall p i vs np ps ps' d net from to ft mc,
    In (Vote from to (n, i) true ft (p_term p) mc) net ->
    In (fst from) cfg -> ~ In (fst from) (map fst vs) ->
    (forall q k, In (q, k) ps' -> k = 0 \/ In (q, k) ps) ->
    nstep (mkN (mkM p Candidate i vs np ps) d) net
          (mkN (mkM p Candidate i ((fst from, true) :: vs) np ps') d) net
| ns_lead : forall p i vs np np' ps d net,
    length cfg < 2 * (1 + countVotes true vs) ->
    let p' := set_mc (p_term p) p in
    let l' := d_log d ++ [mkE (p_term p) noopCmd] in
    let m' := mkM p' Leader i vs np' ps in
    nstep (mkN (mkM p Candidate i vs np ps) d) net
          (mkN m' (mkD p' l'))
          (net ++ map (newAE n m' l' (length (d_log d)) 1) (others cfg n))
| ns_append : forall m d net c,
    m_role m = Leader ->
    nstep (mkN m d) net (mkN m (mkD (d_p d) (d_log d ++ [mkE (p_term (m_p m)) c]))) net
| ns_sendAE : forall m d net prev cnt pt to,
    m_role m = Leader -> to <> n -> prev <= length (d_log d) ->
    let es := firstn cnt (skipn prev (d_log d)) in
    (es <> [] -> pt = termAt (d_log d) prev) ->
    (strong = true -> es <> [] -> length (d_log d) <= prev + cnt) ->
    nstep (mkN m d) net (mkN m d)
      (net ++ [AppendEntries (n, m_inc m) to (p_term (m_p m)) (terms (d_log d)) prev pt es
                 (p_commit (m_p m)) (p_mc (m_p m))])
| ns_commitAE : forall m d net from to T lt prev pt es lci mc c,
    In (AppendEntries from to T lt prev pt es lci mc) net ->
    T <= p_term (m_p m) -> c <= lci -> c <= lcp lt (terms (d_log d)) ->
    (strong = true -> p_commit (m_p m) <= c) ->
    nstep (mkN m d) net (mkN (set_p (set_commit c (m_p m)) m) d) net
| ns_commitLead : forall m d net ci nf,
    m_role m = Leader ->
    nth_error (sortDesc (matchIndexes cfg m (d_log d))) (quorum cfg nf - 1) = Some ci ->
    (strong = true -> NoDup (n :: map (fun x => fst (fst x)) (m_peers m))) ->
    0 < ci -> p_commit (m_p m) < ci -> ci <= length (d_log d) ->
    termAt (d_log d) ci = p_term (m_p m) ->
    nstep (mkN m d) net (mkN (set_p (set_commit ci (m_p m)) m) d) net
| ns_apply : forall m d net,
    length (p_applied (m_p m)) <= p_commit (m_p m) ->
    let p := m_p m in
    let la := length (p_applied p) in
    nstep (mkN m d) net
      (mkN (set_p (set_applied (p_applied p ++ firstn (p_commit p - la) (skipn la (d_log d))) p) m) d) net
| ns_match : forall p i vs np ps ps' d net from to st rej gap lc li mc k,
    In (Ack from to (n, i) st (p_term p) rej gap lc li mc) net ->
    (strong = true -> st = p_term p) ->
    k = (if rej then lc else li) ->
    (forall q j, In (q, j) ps' -> j = 0 \/ In (q, j) ps \/ (q = from /\ j = k)) ->
    nstep (mkN (mkM p Leader i vs np ps) d) net (mkN (mkM p Leader i vs np ps') d) net
| ns_write : forall m d net from to lt prev pt es lci mc k,
    let T := p_term (m_p m) in
    In (AppendEntries from to T lt prev pt es lci mc) net ->
    m_role m = Follower -> p_term (d_p d) = T ->
    let c := lcp lt (terms (d_log d)) in
    c < length lt -> prev <= c ->
    nstep (mkN m d) net
      (mkN m (mkD (d_p d) (firstn c (d_log d) ++ firstn k (skipn (c - prev) es)))) net
| ns_ack : forall m d net from to T lt prev pt es lci mc t rej gap lcri mc',
    In (AppendEntries from to T lt prev pt es lci mc) net ->
    let c := lcp lt (terms (d_log d)) in
    (t = T -> p_term (m_p m) = T /\ p_term (d_p d) = T) ->
    (rej = true -> lcri = c) ->
    (rej = false -> t = T) ->
    (strong = true -> rej = false -> c = length lt \/ c = length (d_log d)) ->
    mc' <= t ->
    nstep (mkN m d) net (mkN m d)
      (net ++ [Ack (n, m_inc m) (fst from) from T t rej gap lcri (length (d_log d)) mc'])
| ns_crash : forall m d net,
    nstep (mkN m d) net (restart (m_inc m) d) net.

Inductive nstar : node -> list msg -> node -> list msg -> Prop :=
| nstar_refl : forall nd net, nstar nd net nd net
| nstar_step : forall nd1 net1 nd2 net2 nd3 net3,
    nstep nd1 net1 nd2 net2 -> nstar nd2 net2 nd3 net3 -> nstar nd1 net1 nd3 net3.

Lemma nstar_trans : forall a na b nb c nc,
  nstar a na b nb -> nstar b nb c nc -> nstar a na c nc.
Proof. induction 1; intros; eauto using nstar_step. Qed.
Lemma nstar_one : forall a na b nb, nstep a na b nb -> nstar a na b nb.
Proof. intros; eapply nstar_step; eauto using nstar_refl. Qed.
End abs.
