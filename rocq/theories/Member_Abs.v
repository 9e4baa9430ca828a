(** The part of the cluster's state that matters for "one leader per term", with the
    history of elections and changes, and the atomic moves a handler is made of. *)
From Coq Require Import List Arith Bool Lia.
From Verif Require Import Base Member_Model Member_Spec Member_Tree.
Import ListNotations.

Record anode := mkA {
  a_mt : nat;                          (* CurrentTerm in memory *)
  a_dt : nat;                          (* CurrentTerm on disk *)
  a_cfg : conf;                        (* MC, in memory and on disk *)
  a_role : role_t;
  a_inc : nat;
  a_votes : list nat;                  (* who voted for us, ourselves apart *)
  a_seen : list (nat * (conf * nat))
}.

Record astate := mkS {
  s_nd : nat -> anode;
  s_rv : list (who * nat * conf);              (* RequestVotes: candidate, term, configuration *)
  s_vt : list (nat * nat * who);               (* votes that raised the voter's term *)
  s_rep : list (nat * conf * nat);             (* reports: who, configuration, term *)
  s_ae : list (who * nat * conf);              (* AppendEntries *)
  s_gw : list (nat * who * conf * list nat);   (* elections won: term, winner, configuration, voters *)
  s_gk : list path;                            (* configurations that came to be *)
  s_gc : list (path * list nat)                (* configurations a change started from, and who vouched *)
}.

Definition setN (s : astate) (n : nat) (x : anode) : astate :=
  mkS (upd (s_nd s) n x) (s_rv s) (s_vt s) (s_rep s) (s_ae s) (s_gw s) (s_gk s) (s_gc s).
Definition addRV (s : astate) x := mkS (s_nd s) (x :: s_rv s) (s_vt s) (s_rep s) (s_ae s) (s_gw s) (s_gk s) (s_gc s).
Definition addVT (s : astate) x := mkS (s_nd s) (s_rv s) (x :: s_vt s) (s_rep s) (s_ae s) (s_gw s) (s_gk s) (s_gc s).
Definition addRep (s : astate) x := mkS (s_nd s) (s_rv s) (s_vt s) (x :: s_rep s) (s_ae s) (s_gw s) (s_gk s) (s_gc s).
Definition addAE (s : astate) x := mkS (s_nd s) (s_rv s) (s_vt s) (s_rep s) (x :: s_ae s) (s_gw s) (s_gk s) (s_gc s).
Definition addWin (s : astate) x := mkS (s_nd s) (s_rv s) (s_vt s) (s_rep s) (s_ae s) (x :: s_gw s) (s_gk s) (s_gc s).
Definition addK (s : astate) x := mkS (s_nd s) (s_rv s) (s_vt s) (s_rep s) (s_ae s) (s_gw s) (x :: s_gk s) (s_gc s).
Definition addC (s : astate) x := mkS (s_nd s) (s_rv s) (s_vt s) (s_rep s) (s_ae s) (s_gw s) (s_gk s) (x :: s_gc s).

Definition newer (c own : conf) : conf := if versionGT c own then c else own.
(** A configuration that may be adopted along with term [t]. *)
Definition source (s : astate) (t : nat) (c : conf) : Prop :=
  (exists x, In (x, t, c) (s_rv s)) \/ (exists x, In (x, t, c) (s_ae s)) \/
  (exists q t', In (q, c, t') (s_rep s) /\ t' <= t).
Definition cle (a b : conf) : Prop := c_term a < c_term b \/ (c_term a = c_term b /\ c_ver a <= c_ver b).

Inductive ast (s : astate) : astate -> Prop :=
| a_quiet : forall n dt r sn,
    a_dt (s_nd s n) <= dt <= a_mt (s_nd s n) ->
    r = a_role (s_nd s n) \/ r = Follower ->
    (forall q c t, In (q, (c, t)) sn -> In (q, (c, t)) (a_seen (s_nd s n)) \/ In (q, c, t) (s_rep s) \/ t <> c_term c \/ t = 0) ->
    ast s (setN s n (let a := s_nd s n in mkA (a_mt a) dt (a_cfg a) r (a_inc a) (a_votes a) sn))
| a_report : forall n, ast s (addRep s (n, a_cfg (s_nd s n), a_mt (s_nd s n)))
| a_beat : forall n, a_role (s_nd s n) = Leader ->
    ast s (addAE s ((n, a_inc (s_nd s n)), a_mt (s_nd s n), a_cfg (s_nd s n)))
| a_raise : forall n t oc, a_mt (s_nd s n) < t ->
    (forall c, oc = Some c -> source s t c) ->
    ast s (setN s n (let a := s_nd s n in
       mkA t t (match oc with Some c => newer c (a_cfg a) | None => a_cfg a end) Follower (a_inc a) (a_votes a) (a_seen a)))
| a_vote : forall n t cand K, a_mt (s_nd s n) < t -> In (cand, t, K) (s_rv s) -> fst cand <> n ->
    versionGT (newer K (a_cfg (s_nd s n))) K = false ->
    ast s (addVT (setN s n (let a := s_nd s n in mkA t t (newer K (a_cfg a)) Follower (a_inc a) (a_votes a) (a_seen a)))
                 (n, t, cand))
| a_adopt : forall n l c, In (l, a_mt (s_nd s n), c) (s_ae s) ->
    versionGT c (a_cfg (s_nd s n)) = true ->
    ast s (setN s n (let a := s_nd s n in mkA (a_mt a) (a_mt a) c Follower (a_inc a) (a_votes a) (a_seen a)))
| a_elect : forall n, a_role (s_nd s n) = Follower -> In n (c_mem (a_cfg (s_nd s n))) ->
    ast s (addRV (setN s n (let a := s_nd s n in mkA (S (a_mt a)) (a_dt a) (a_cfg a) Candidate (a_inc a) [] (a_seen a)))
                 ((n, a_inc (s_nd s n)), S (a_mt (s_nd s n)), a_cfg (s_nd s n)))
| a_tally : forall n x, a_role (s_nd s n) = Candidate ->
    In (x, a_mt (s_nd s n), (n, a_inc (s_nd s n))) (s_vt s) -> In x (c_mem (a_cfg (s_nd s n))) ->
    ~ In x (a_votes (s_nd s n)) ->
    ast s (setN s n (let a := s_nd s n in mkA (a_mt a) (a_dt a) (a_cfg a) Candidate (a_inc a) (x :: a_votes a) (a_seen a)))
| a_win : forall n t Q, let a := s_nd s n in let K := a_cfg a in let l := (n, a_inc a) in
    (a_role a = Candidate /\ t = a_mt a /\ Q = n :: a_votes a) \/
    (a_role a = Follower /\ c_mem K = [n] /\ Q = [n] /\
       ((c_term K < a_mt a /\ t = a_mt a) \/ (c_term K = a_mt a /\ t = S (a_mt a)))) ->
    length (c_mem K) < 2 * length Q ->
    ast s (addK (addWin (setN s n (mkA t t (stamp t l K) Leader (a_inc a) (a_votes a) (a_seen a))) (t, l, K, Q))
                (c_hist K ++ [El t l]))
| a_change : forall n m Q, let a := s_nd s n in let c := a_cfg a in
    a_role a = Leader -> majorityOf (c_mem c) Q -> meets (c_mem c) m -> NoDup m ->
    (forall x, In x Q -> x = n \/ exists c', In (x, (c', a_mt a)) (a_seen a) /\ versionEqual c' c = true) ->
    ast s (addC (addK (setN s n (mkA (a_mt a) (a_mt a) (mkC (c_term c) (S (c_ver c)) m (c_hist c ++ [Rc m])) Leader
                                  (a_inc a) (a_votes a) (a_seen a)))
                      (c_hist c ++ [Rc m])) (c_hist c, Q))
| a_restart : forall n,
    ast s (setN s n (let a := s_nd s n in mkA (a_dt a) (a_dt a) (a_cfg a) Follower (S (a_inc a)) [] [])).

(** What follows from a node [q] at one time having configuration [c] and a term of at
    least c's: its configuration stays at least [c], and it only helps elect, in later
    terms, candidates whose configuration is at least [c]. *)
Definition voteFact (s : astate) (q T : nat) (cand : who) (K : conf) : Prop :=
  (In (q, T, cand) (s_vt s) /\ In (cand, T, K) (s_rv s)) \/
  (exists Q, In (T, cand, K, Q) (s_gw s) /\ fst cand = q).
Definition holds (s : astate) (q : nat) (c : conf) : Prop :=
  cle c (a_cfg (s_nd s q)) /\ c_term c <= a_dt (s_nd s q) /\
  forall T cand K, voteFact s q T cand K -> c_term c < T -> cle c K.

Section inv.
Variable v0 : nat.
Variable founders : list nat.

(** [c] is the configuration its history says. *)
Definition okc (gk : list path) (c : conf) : Prop :=
  (In (c_hist c) gk /\ c_term c = tm (c_hist c) /\ c_ver c = vr v0 (c_hist c) /\ c_mem c = mm founders (c_hist c)) \/
  c = emptyC.

(** Conditions on one node in the roles of candidate and leader. *)
Definition candOk (s : astate) (n : nat) (a : anode) : Prop :=
  a_role a = Candidate ->
  c_term (a_cfg a) < a_mt a /\ In n (c_mem (a_cfg a)) /\ NoDup (a_votes a) /\
  (forall x, In x (a_votes a) -> In x (c_mem (a_cfg a)) /\ In (x, a_mt a, (n, a_inc a)) (s_vt s)) /\
  (forall l, ~ In (n, a_mt a, l) (s_vt s)) /\
  In ((n, a_inc a), a_mt a, a_cfg a) (s_rv s).
Definition leadOk (s : astate) (n : nat) (a : anode) : Prop :=
  a_role a = Leader ->
  c_term (a_cfg a) = a_mt a /\ 1 <= a_mt a /\
  lastEl (c_hist (a_cfg a)) = Some (a_mt a, (n, a_inc a)) /\
  forall p, In p (s_gk s) -> lastEl p = Some (a_mt a, (n, a_inc a)) -> vr v0 p <= c_ver (a_cfg a).
(** A node that voted in its durable term is not the lone member of an older configuration. *)
Definition singleOk (s : astate) (n : nat) (a : anode) : Prop :=
  forall l, In (n, a_dt a, l) (s_vt s) -> c_term (a_cfg a) = a_dt a \/ c_mem (a_cfg a) <> [n].
Definition seenOk (s : astate) (a : anode) : Prop :=
  forall q c t, In (q, (c, t)) (a_seen a) -> c_term c = t -> 1 <= t -> holds s q c.

Record Inv (s : astate) : Prop := {
  i_le1 : forall n, c_term (a_cfg (s_nd s n)) <= a_dt (s_nd s n);
  i_le2 : forall n, a_dt (s_nd s n) <= a_mt (s_nd s n);
  i_cfg : forall n, okc (s_gk s) (a_cfg (s_nd s n));
  i_cand : forall n, candOk s n (s_nd s n);
  i_lead : forall n, leadOk s n (s_nd s n);
  i_single : forall n, singleOk s n (s_nd s n);
  i_seen : forall n, seenOk s (s_nd s n);
  i_rv : forall l t K, In (l, t, K) (s_rv s) -> okc (s_gk s) K /\ c_term K < t /\ In (fst l) (c_mem K) /\
     (snd l < a_inc (s_nd s (fst l)) \/ (snd l = a_inc (s_nd s (fst l)) /\ t <= a_mt (s_nd s (fst l))));
  i_rvu : forall l t K K', In (l, t, K) (s_rv s) -> In (l, t, K') (s_rv s) -> K = K';
  i_vt : forall x t l, In (x, t, l) (s_vt s) -> t <= a_dt (s_nd s x) /\ (exists K, In (l, t, K) (s_rv s)) /\ fst l <> x;
  i_vtu : forall x t l l', In (x, t, l) (s_vt s) -> In (x, t, l') (s_vt s) -> l = l';
  i_rep : forall q c t, In (q, c, t) (s_rep s) -> okc (s_gk s) c /\ c_term c <= t /\
     (c_term c = t -> 1 <= t -> holds s q c);
  i_ae : forall l t c, In (l, t, c) (s_ae s) -> okc (s_gk s) c /\ c_term c = t /\ exists K Q, In (t, l, K, Q) (s_gw s);
  i_win : forall t l K Q, In (t, l, K, Q) (s_gw s) ->
     okc (s_gk s) K /\ c_mem K <> [] /\ c_term K < t /\ majorityOf (c_mem K) Q /\
     (forall x, In x Q -> voteFact s x t l K) /\
     t <= c_term (a_cfg (s_nd s (fst l)));
  i_winu : forall t l K Q l' K' Q', In (t, l, K, Q) (s_gw s) -> In (t, l', K', Q') (s_gw s) -> fst l = fst l' ->
     l = l' /\ K = K';
  i_winv : forall t l K Q l', In (t, l, K, Q) (s_gw s) -> ~ In (fst l, t, l') (s_vt s);
  i_nil : In [] (s_gk s);
  i_pre : forall p e, In (p ++ [e]) (s_gk s) -> In p (s_gk s);
  i_el : forall p t l, In (p ++ [El t l]) (s_gk s) -> exists K Q, In (t, l, K, Q) (s_gw s) /\ c_hist K = p;
  i_rc : forall p m, In (p ++ [Rc m]) (s_gk s) -> (exists Q, In (p, Q) (s_gc s)) /\ meets (mm founders p) m;
  i_one : forall p m m', In (p ++ [Rc m]) (s_gk s) -> In (p ++ [Rc m']) (s_gk s) -> m = m';
  i_nd : forall p, In p (s_gk s) -> NoDup (mm founders p);
  i_gc : forall p Q, In (p, Q) (s_gc s) -> In p (s_gk s) /\ majorityOf (mm founders p) Q /\
     1 <= tm p /\ forall x, In x Q -> holds s x (mkC (tm p) (vr v0 p) (mm founders p) p)
}.
End inv.
