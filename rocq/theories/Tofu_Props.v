(** Known keys: the properties C93-C102. *)
From Coq Require Import List Bool Ascii String Arith Lia.
From Verif Require Import Tofu_Model Tofu_Spec Tofu_Text Tofu_Proofs Tofu_Conc.
Import ListNotations.

(** ** Concrete data for examples and refutations *)

(** A code with the assumed properties: two letters a-p for each byte. *)
Definition nib (b0 b1 b2 b3 : bool) : ascii :=
  ascii_of_nat (97 + (if b0 then 1 else 0) + (if b1 then 2 else 0) + (if b2 then 4 else 0) + (if b3 then 8 else 0)).
Definition unnib (c : ascii) : bool * bool * bool * bool :=
  let n := nat_of_ascii c - 97 in
  (Nat.odd n, Nat.odd (n / 2), Nat.odd (n / 4), Nat.odd (n / 8)).
Fixpoint encX (t : text) : text :=
  match t with
  | [] => []
  | Ascii b0 b1 b2 b3 b4 b5 b6 b7 :: r => nib b0 b1 b2 b3 :: nib b4 b5 b6 b7 :: encX r
  end.
Fixpoint decX (t : text) : option text :=
  match t with
  | [] => Some []
  | x :: y :: r =>
      match decX r with
      | Some r' =>
          let '(b0, b1, b2, b3) := unnib x in
          let '(b4, b5, b6, b7) := unnib y in
          Some (Ascii b0 b1 b2 b3 b4 b5 b6 b7 :: r')
      | None => None
      end
  | _ => None
  end.

Lemma unnib_nib : forall b0 b1 b2 b3, unnib (nib b0 b1 b2 b3) = (b0, b1, b2, b3).
Proof. intros [] [] [] []; reflexivity. Qed.

Lemma b58X : Base58 encX decX.
Proof.
  split.
  - induction x as [|[b0 b1 b2 b3 b4 b5 b6 b7] r IH]; [reflexivity|]. cbn [encX decX]. rewrite IH, !unnib_nib. reflexivity.
  - induction x as [|[b0 b1 b2 b3 b4 b5 b6 b7] r IH]; intros c H; [destruct H|]. cbn [encX In] in H.
    destruct H as [<- | [<- | H]]; [| | apply IH; exact H].
    + destruct b0, b1, b2, b3; (split; [reflexivity | discriminate]).
    + destruct b4, b5, b6, b7; (split; [reflexivity | discriminate]).
Qed.

Lemma listed_parse : forall t kn k, parse t = Some kn -> (Listed t k <-> hasPub k kn = true).
Proof. intros t kn k H. rewrite hasPub_spec. symmetry. apply parse_some. exact H. Qed.

Lemma wf_parse : forall t kn, parse t = Some kn -> WellFormed t.
Proof. intros t kn H. eapply parse_some. exact H. Qed.

Definition keyA : text := txt "Alice".
Definition keyB : text := txt "Bob".
Definition keyC : text := txt "Carol".
Definition certOf (k : text) (m : string) : cert := CE (Some k) [txt m].
Definition from (cs : list cert) : conn := CO cs (Some (txt "10.0.0.7")).
Definition connA : conn := from [certOf keyA "alice@example.com"].
Definition connB : conn := from [certOf keyB "bob@example.com"].
Definition connC : conn := from [certOf keyC "carol@example.com"].

(** a file that knows Alice. *)
Definition textA : text := fileText [KK (txt "10.0.0.7") ed25519 (encX keyA) (txt "alice@example.com")].
Definition diskA (w : bool) : fsys := FS [IN textA w] (Some 0) None.
(** an empty file. *)
Definition disk0 (w : bool) : fsys := FS [IN [] w] (Some 0) None.

Definition knA : known := match parse textA with Some kn => kn | None => newKnown end.
Lemma parseA : parse textA = Some knA. Proof. vm_compute. reflexivity. Qed.
Lemma listedA : Listed textA (encX keyA). Proof. apply (listed_parse _ _ _ parseA). vm_compute. reflexivity. Qed.
Lemma unlistedC : ~ Listed textA (encX keyC). Proof. intros H. apply (listed_parse _ _ _ parseA) in H. vm_compute in H. discriminate. Qed.
Lemma unlistedB : ~ Listed textA (encX keyB). Proof. intros H. apply (listed_parse _ _ _ parseA) in H. vm_compute in H. discriminate. Qed.
Lemma wfA : WellFormed textA. Proof. exact (wf_parse _ _ parseA). Qed.
Lemma fileA : forall w, fileIs (diskA w) w textA. Proof. intros w. exists 0. split; reflexivity. Qed.
Lemma file0 : forall w, fileIs (disk0 w) w []. Proof. intros w. exists 0. split; reflexivity. Qed.
Lemma parse0 : parse [] = Some newKnown. Proof. reflexivity. Qed.
Lemma properOf : forall x cs, proper (from (x :: cs)). Proof. intros x cs. split; discriminate. Qed.
Lemma plainOf : forall cs, plainHost (from cs).
Proof.
  intros cs h E. injection E as <-. split; [discriminate|]. split; [|intros h' K; discriminate].
  intros c H. repeat (destruct H as [<- | H]; [reflexivity|]). destruct H.
Qed.
Lemma onlyOf : forall k m, k <> [] -> only (from [certOf k m]) k.
Proof. intros k m H. exists (certOf k m). split; [reflexivity|]. split; [reflexivity | exact H]. Qed.
Lemma noNl : forall m, existsb (Ascii.eqb nl) (txt m) = false -> ~ In nl (txt m).
Proof.
  intros m H K. assert (existsb (Ascii.eqb nl) (txt m) = true) by (apply existsb_exists; exists nl; split; [exact K | apply Ascii.eqb_refl]). congruence.
Qed.
Lemma mailsOf : forall k m, existsb (Ascii.eqb nl) (txt m) = false -> plainMails (from [certOf k m]).
Proof. intros k m H x m' [<- | []] [<- | []]. apply noNl. exact H. Qed.

(** ** C93: a read-only file lets in the peers it lists *)

(** Proved for what the check looks at: a peer is let in if and only if ONE
    of the certificates it sends is listed (and those before it are ed25519).
    Missing: that the listed key is the one whose possession TLS has checked.
    All interleavings of any number of connections; the file never changes. *)
Theorem C93_lockdown_partial : forall enc dec, Base58 enc dec ->
  forall s t es, fileIs s false t -> WellFormed t -> noChmod es ->
  fst (wrun enc dec es (s, [])) = s /\
  forall i c, nth_error (arrivals es) i = Some c -> proper c ->
    exists p, nth_error (snd (wrun enc dec es (s, []))) i = Some p /\ p <> Panic /\
      forall r, p = Ret r -> (accepted r = true <-> offers enc (Listed t) (cCerts c)).
Proof.
  intros enc dec B s t es F W HN.
  destruct (quiet enc dec s es HN) as (E & F2); [intros c _; eapply pure_lock; exact F|].
  split; [exact E|]. intros i c Hc P.
  destruct (Forall2_nth _ _ _ _ _ F2 i c Hc) as (p & Hp & _ & R).
  destruct (run_lock enc dec B c s t F W P) as (r & Er & A). rewrite Er in R.
  exists p. split; [exact Hp|]. split.
  - intros ->. discriminate.
  - intros r' ->. cbn [run] in R. injection R as ->. exact A.
Qed.
Print Assumptions C93_lockdown_partial.

Example C93_lockdown_partial_ex :
  let es := [EArrive connA; EArrive connC; EStep 0; EStep 1; EStep 1; EStep 0; EStep 0; EStep 1; EStep 1; EStep 1; EStep 0; EStep 0] in
  fileIs (diskA false) false textA /\ WellFormed textA /\ noChmod es /\
  map (fun p => match p with Ret r => Some (accepted r) | _ => None end) (snd (wrun encX decX es (diskA false, []))) = [Some true; Some false].
Proof.
  split; [apply fileA|]. split; [exact wfA|]. split.
  - intros b H. repeat (destruct H as [H | H]; [discriminate|]). destruct H.
  - vm_compute. reflexivity.
Qed.

(** A peer that sends one certificate is let in if and only if it is listed. *)
Theorem C93_single_partial : forall enc dec, Base58 enc dec ->
  forall s t c raw, fileIs s false t -> WellFormed t -> proper c -> only c raw ->
  exists r, run (verify enc dec c) s = (s, Some r) /\ (accepted r = true <-> Listed t (enc raw)).
Proof.
  intros enc dec B s t c raw F W P O. destruct (run_lock enc dec B c s t F W P) as (r & E & A).
  exists r. split; [exact E|]. rewrite A. unfold admits. apply offers_only. exact O.
Qed.
Print Assumptions C93_single_partial.

Example C93_single_partial_ex : proper connC /\ only connC keyC /\ ~ Listed textA (encX keyC) /\ Listed textA (encX keyA).
Proof. split; [apply properOf|]. split; [apply onlyOf; discriminate|]. split; [exact unlistedC | exact listedA]. Qed.

(** False in full: Carol, whose key is not listed, also sends Alice's
    certificate and is let in. *)
Theorem C93_borrowed_refuted : ~ (forall enc dec s t c raw r, Base58 enc dec ->
  fileIs s false t -> WellFormed t -> proper c -> leaf c raw ->
  run (verify enc dec c) s = (s, Some r) -> accepted r = true -> Listed t (enc raw)).
Proof.
  intros H.
  apply unlistedC.
  apply (H encX decX (diskA false) textA (from [certOf keyC "carol@example.com"; certOf keyA "alice@example.com"]) keyC
    (match run (verify encX decX (from [certOf keyC "carol@example.com"; certOf keyA "alice@example.com"])) (diskA false) with (_, Some r) => r | _ => r0 end)).
  - exact b58X.
  - apply fileA.
  - exact wfA.
  - apply properOf.
  - eexists. eexists. split; [reflexivity|]. split; [reflexivity | discriminate].
  - vm_compute. reflexivity.
  - vm_compute. reflexivity.
Qed.
Print Assumptions C93_borrowed_refuted.

(** ** C94: a writable file remembers whoever was let in *)

(** Proved for hosts of one word and e-mail addresses without a newline:
    everybody with ed25519 keys is let in, the first certificate is in the
    file afterwards, nobody is forgotten, and nobody but the certificates
    sent is added. *)
Theorem C94_recorded_partial : forall enc dec, Base58 enc dec ->
  forall c s t, fileIs s true t -> WellFormed t -> proper c -> plainHost c -> plainMails c ->
  exists s' r t', run (verify enc dec c) s = (s', Some r) /\
    fileIs s' true t' /\ WellFormed t' /\
    (forall k, Listed t k -> Listed t' k) /\
    (forall k, Listed t' k -> Listed t k \/ exists x raw, In x (cCerts c) /\ edKey x raw /\ k = enc raw) /\
    ((forall x, In x (cCerts c) -> isEd x) -> accepted r = true) /\
    (forall raw, leaf c raw -> Listed t' (enc raw)).
Proof.
  intros enc dec B c s t F W P PH PM.
  destruct (run_tofu enc dec B c s t F W P PH PM) as (s' & r & t' & E & F' & W' & K1 & K2 & K3 & K4).
  exists s', r, t'. repeat (split; [assumption|]). intros raw (x & rest & Ex & Hx). eapply K4; eassumption.
Qed.
Print Assumptions C94_recorded_partial.

Example C94_recorded_partial_ex :
  fileIs (diskA true) true textA /\ proper connC /\ plainHost connC /\ plainMails connC /\ leaf connC keyC /\
  ~ Listed textA (encX keyC).
Proof.
  split; [apply fileA|]. split; [apply properOf|]. split; [apply plainOf|]. split; [apply mailsOf; reflexivity|].
  split; [eexists; eexists; split; [reflexivity|]; split; [reflexivity | discriminate] | exact unlistedC].
Qed.

(** False for an e-mail address with a newline: Carol is let in, and from
    then on nobody is, Alice neither. *)
Definition mailNl : text := txt "carol@example.com" ++ nl :: txt "no entry".
Definition connNl : conn := from [CE (Some keyC) [mailNl]].

Theorem C94_newline_refuted : ~ (forall enc dec c s t s' r c2 raw2, Base58 enc dec ->
  fileIs s true t -> WellFormed t -> proper c -> plainHost c -> run (verify enc dec c) s = (s', Some r) -> accepted r = true ->
  proper c2 -> only c2 raw2 -> Listed t (enc raw2) ->
  exists s2 r2, run (verify enc dec c2) s' = (s2, Some r2) /\ accepted r2 = true).
Proof.
  intros H.
  destruct (H encX decX connNl (diskA true) textA (fst (run (verify encX decX connNl) (diskA true)))
    (match run (verify encX decX connNl) (diskA true) with (_, Some r) => r | _ => r0 end) connA keyA) as (s2 & r2 & E & A).
  - exact b58X.
  - apply fileA.
  - exact wfA.
  - apply properOf.
  - apply plainOf.
  - vm_compute. reflexivity.
  - vm_compute. reflexivity.
  - apply properOf.
  - apply onlyOf. discriminate.
  - exact listedA.
  - vm_compute in E. injection E as <- <-. vm_compute in A. discriminate.
Qed.
Print Assumptions C94_newline_refuted.

(** ** C95: learning first, locking afterwards *)

(** Any number of peers are let in while the file is writable; then the
    administrator makes it read-only.  From then on exactly the peers it
    listed before and those let in are let in.  Proved for peers that send
    one certificate, plain hosts and e-mail addresses, one peer at a time. *)
Theorem C95_learned_partial : forall enc dec, Base58 enc dec ->
  forall s t cs c raw, fileIs s true t -> WellFormed t ->
  (forall d, In d cs -> proper d /\ plainHost d /\ plainMails d /\ exists k, only d k) ->
  proper c -> only c raw ->
  exists r, run (verify enc dec c) (chmod false (fst (runs enc dec cs s))) = (chmod false (fst (runs enc dec cs s)), Some r) /\
    (accepted r = true <-> Listed t (enc raw) \/ exists d, In d cs /\ only d raw).
Proof.
  intros enc dec B s t cs c raw F W H P O.
  destruct (runs_tofu enc dec B cs s t F W H) as (t' & F' & W' & L & _).
  destruct (C93_single_partial enc dec B _ t' c raw (chmod_file _ _ false _ F') W' P O) as (r & E & A).
  exists r. split; [exact E|]. rewrite A, L. split.
  - intros [K | (d & k & Hd & Hk & Ek)]; [auto|]. right. exists d. split; [exact Hd|].
    apply (enc_inj enc dec B) in Ek. subst k. exact Hk.
  - intros [K | (d & Hd & Hk)]; [auto|]. right. exists d, raw. auto.
Qed.
Print Assumptions C95_learned_partial.

Example C95_learned_partial_ex :
  let s := chmod false (fst (runs encX decX [connA; connC] (disk0 true))) in
  map (fun c => match snd (run (verify encX decX c) s) with Some r => accepted r | None => false end) [connA; connB; connC] = [true; false; true].
Proof. vm_compute. reflexivity. Qed.

(** False with a newline in an e-mail address: Carol's certificate smuggles
    Bob's key into the file. *)
Definition connIn : conn := from [CE (Some keyC) [txt "c@x" ++ nl :: txt "10.0.0.9 " ++ prefix ++ encX keyB ++ txt ":b@x"]].

Theorem C95_injected_refuted : ~ (forall enc dec s t cs c raw r, Base58 enc dec ->
  fileIs s true t -> WellFormed t -> (forall d, In d cs -> proper d /\ plainHost d /\ exists k, only d k) ->
  proper c -> only c raw ->
  run (verify enc dec c) (chmod false (fst (runs enc dec cs s))) = (chmod false (fst (runs enc dec cs s)), Some r) ->
  accepted r = true -> Listed t (enc raw) \/ exists d, In d cs /\ only d raw).
Proof.
  intros H.
  destruct (H encX decX (diskA true) textA [connIn] connB keyB
    (match run (verify encX decX connB) (chmod false (fst (runs encX decX [connIn] (diskA true)))) with (_, Some r) => r | _ => r0 end)) as [K | (d & [<- | []] & x & Ex & Hx & _)].
  - exact b58X.
  - apply fileA.
  - exact wfA.
  - intros d [<- | []]. split; [apply properOf|]. split; [apply plainOf|]. exists keyC. eexists. split; [reflexivity|]. split; [reflexivity | discriminate].
  - apply properOf.
  - apply onlyOf. discriminate.
  - vm_compute. reflexivity.
  - vm_compute. reflexivity.
  - exact (unlistedB K).
  - injection Ex as <-. discriminate.
Qed.
Print Assumptions C95_injected_refuted.

(** ** C96: killed while writing *)

(** Whenever the process is killed, the file or file.old still lists every
    key that was known.  Missing: that it is the file itself. *)
Theorem C96_killed_partial : forall enc dec, Base58 enc dec ->
  forall c s t, fileIs s true t -> plainHost c -> plainMails c ->
  forall n, exists u,
    ((exists w, fileIs (runCut n (verify enc dec c) s) w u) \/ oldIs (runCut n (verify enc dec c) s) u) /\
    forall k, Listed t k -> Listed u k.
Proof. exact cut_all. Qed.
Print Assumptions C96_killed_partial.

Example C96_killed_partial_ex : fileIs (diskA true) true textA /\ plainHost connC /\ plainMails connC /\
  atOld (runCut 9 (verify encX decX connC) (diskA true)) = Some 0.
Proof. split; [apply fileA|]. split; [apply plainOf|]. split; [apply mailsOf; reflexivity | vm_compute; reflexivity]. Qed.

(** False of the file itself: killed between the renaming and the creation
    there is none, and the next start lets everybody in, without a record. *)
Theorem C96_killed_refuted : ~ (forall enc dec c s t n d s2 r, Base58 enc dec ->
  fileIs s true t -> WellFormed t -> proper c -> plainHost c -> plainMails c -> proper d ->
  run (verify enc dec d) (runCut n (verify enc dec c) s) = (s2, Some r) -> accepted r = true ->
  exists w u, fileIs s2 w u).
Proof.
  intros H.
  destruct (H encX decX connC (diskA true) textA 8 connB
    (fst (run (verify encX decX connB) (runCut 8 (verify encX decX connC) (diskA true)))) r0) as (w & u & i & Hp & _).
  - exact b58X.
  - apply fileA.
  - exact wfA.
  - apply properOf.
  - apply plainOf.
  - apply mailsOf. reflexivity.
  - apply properOf.
  - vm_compute. reflexivity.
  - reflexivity.
  - vm_compute in Hp. discriminate.
Qed.
Print Assumptions C96_killed_refuted.

(** ** C97: connections at the same time *)

(** Peers whose first certificate is listed: any number of them, at the same
    time, are let in, and the file stays as it is, writable or not. *)
Theorem C97_known_partial : forall enc dec, Base58 enc dec ->
  forall s w t es, fileIs s w t -> WellFormed t -> noChmod es ->
  (forall c, In c (arrivals es) -> cHost c <> None /\ exists raw, leaf c raw /\ Listed t (enc raw)) ->
  fst (wrun enc dec es (s, [])) = s /\
  forall i c, nth_error (arrivals es) i = Some c ->
    exists p, nth_error (snd (wrun enc dec es (s, []))) i = Some p /\ p <> Panic /\ forall r, p = Ret r -> accepted r = true.
Proof.
  intros enc dec B s w t es F W HN HC.
  destruct (quiet enc dec s es HN) as (E & F2).
  { intros c Hc. destruct (HC c Hc) as (_ & raw & Hl & HL). eapply pure_known; eassumption. }
  split; [exact E|]. intros i c Hc.
  destruct (Forall2_nth _ _ _ _ _ F2 i c Hc) as (p & Hp & _ & R).
  destruct (HC c) as (Hh & raw & (x & rest & Ex & Hx) & HL); [eapply nth_error_In; exact Hc|].
  destruct (run_known enc dec B c s w t x rest raw F W Hh Ex Hx HL) as (r & Er & A). rewrite Er in R.
  exists p. split; [exact Hp|]. split.
  - intros ->. discriminate.
  - intros r' ->. cbn [run] in R. injection R as ->. exact A.
Qed.
Print Assumptions C97_known_partial.

Example C97_known_partial_ex :
  noChmod [EArrive connA; EArrive connA; EStep 1; EStep 0] /\
  (forall c, In c (arrivals [EArrive connA; EArrive connA; EStep 1; EStep 0]) -> cHost c <> None /\ exists raw, leaf c raw /\ Listed textA (encX raw)).
Proof.
  split; [intros b H; repeat (destruct H as [H | H]; [discriminate|]); destruct H|].
  intros c H. assert (c = connA) as -> by (destruct H as [H | [H | []]]; congruence).
  split; [discriminate|]. exists keyA. split; [|exact listedA].
  eexists. eexists. split; [reflexivity|]. split; [reflexivity | discriminate].
Qed.

Definition steps (n i : nat) : list event := repeat (EStep i) n.

(** False for a new peer: while Bob is being written down, the server panics
    over Carol (the file vanishes between two looks at it). *)
Theorem C97_panic_refuted : ~ (forall enc dec s t es, Base58 enc dec -> fileIs s true t -> WellFormed t -> noChmod es ->
  (forall c, In c (arrivals es) -> proper c /\ plainHost c /\ plainMails c) ->
  ~ In Panic (snd (wrun enc dec es (s, [])))).
Proof.
  intros H.
  apply (H encX decX (diskA true) textA ([EArrive connB; EArrive connC] ++ steps 7 0 ++ steps 2 1 ++ steps 1 0 ++ steps 1 1)).
  - exact b58X.
  - apply fileA.
  - exact wfA.
  - intros b K. cbn in K. repeat (destruct K as [K | K]; [discriminate|]). destruct K.
  - intros c K. cbn in K. destruct K as [<- | [<- | []]]; (split; [apply properOf|]; split; [apply plainOf|]; apply mailsOf; reflexivity).
  - vm_compute. right. left. reflexivity.
Qed.
Print Assumptions C97_panic_refuted.

(** False: Bob and Carol come at the same time, both are let in, and Carol's
    record overwrites Bob's. *)
Theorem C97_lost_refuted : ~ (forall enc dec s t es i c raw r w u, Base58 enc dec -> fileIs s true t -> WellFormed t -> noChmod es ->
  (forall c, In c (arrivals es) -> proper c /\ plainHost c /\ plainMails c) ->
  (forall p, In p (snd (wrun enc dec es (s, []))) -> exists r, p = Ret r /\ accepted r = true) ->
  nth_error (arrivals es) i = Some c -> only c raw -> nth_error (snd (wrun enc dec es (s, []))) i = Some (Ret r) -> accepted r = true ->
  fileIs (fst (wrun enc dec es (s, []))) w u -> Listed u (enc raw)).
Proof.
  intros H.
  set (es := [EArrive connB; EArrive connC] ++ steps 5 0 ++ steps 20 1 ++ steps 20 0).
  set (fin := wrun encX decX es (diskA true, [])).
  set (u := match atPath (fst fin) with Some i => iText (getI (fst fin) i) | None => [] end).
  assert (K : Listed u (encX keyC)).
  { apply (H encX decX (diskA true) textA es 1 connC keyC
      (match nth_error (snd fin) 1 with Some (Ret r) => r | _ => r0 end) true u).
    - exact b58X.
    - apply fileA.
    - exact wfA.
    - intros b K. cbn in K. repeat (destruct K as [K | K]; [discriminate|]). destruct K.
    - intros c K. cbn in K. destruct K as [<- | [<- | []]]; (split; [apply properOf|]; split; [apply plainOf|]; apply mailsOf; reflexivity).
    - intros p Hp. vm_compute in Hp. destruct Hp as [<- | [<- | []]]; eexists; split; reflexivity.
    - reflexivity.
    - apply onlyOf. discriminate.
    - vm_compute. reflexivity.
    - vm_compute. reflexivity.
    - exists (match atPath (fst fin) with Some i => i | None => 0 end). split; vm_compute; reflexivity. }
  destruct (parse u) as [kn|] eqn:E; [|vm_compute in E; discriminate].
  apply (listed_parse _ _ _ E) in K. vm_compute in E. injection E as <-. vm_compute in K. discriminate.
Qed.
Print Assumptions C97_lost_refuted.

(** False: Alice, who is listed, is refused because the file is away while
    Bob is being written down. *)
Theorem C97_away_refuted : ~ (forall enc dec s t es i c raw r, Base58 enc dec -> fileIs s true t -> WellFormed t -> noChmod es ->
  (forall c, In c (arrivals es) -> proper c /\ plainHost c /\ plainMails c) ->
  nth_error (arrivals es) i = Some c -> only c raw -> Listed t (enc raw) ->
  nth_error (snd (wrun enc dec es (s, []))) i = Some (Ret r) -> accepted r = true).
Proof.
  intros H.
  set (es := [EArrive connB; EArrive connA] ++ steps 4 1 ++ steps 8 0 ++ steps 1 1).
  assert (K := H encX decX (diskA true) textA es 1 connA keyA
    (match nth_error (snd (wrun encX decX es (diskA true, []))) 1 with Some (Ret r) => r | _ => r0 end)).
  enough (Q : false = true) by discriminate. rewrite <- K.
  - vm_compute. reflexivity.
  - exact b58X.
  - apply fileA.
  - exact wfA.
  - intros b Q. cbn in Q. repeat (destruct Q as [Q | Q]; [discriminate|]). destruct Q.
  - intros c Q. cbn in Q. destruct Q as [<- | [<- | []]]; (split; [apply properOf|]; split; [apply plainOf|]; apply mailsOf; reflexivity).
  - reflexivity.
  - apply onlyOf. discriminate.
  - exact listedA.
  - vm_compute. reflexivity.
Qed.
Print Assumptions C97_away_refuted.

(** False: Carol's check reads the file just after it was created anew for
    Bob, and then writes what it read and itself.  Alice is forgotten. *)
Theorem C97_forgotten_refuted : ~ (forall enc dec s t es k w u, Base58 enc dec -> fileIs s true t -> WellFormed t -> noChmod es ->
  (forall c, In c (arrivals es) -> proper c /\ plainHost c /\ plainMails c) ->
  (forall p, In p (snd (wrun enc dec es (s, []))) -> exists r, p = Ret r /\ accepted r = true) ->
  fileIs (fst (wrun enc dec es (s, []))) w u -> Listed t k -> Listed u k).
Proof.
  intros H.
  set (es := [EArrive connB; EArrive connC] ++ steps 9 0 ++ steps 5 1 ++ steps 20 0 ++ steps 20 1).
  set (fin := wrun encX decX es (diskA true, [])).
  set (u := match atPath (fst fin) with Some i => iText (getI (fst fin) i) | None => [] end).
  assert (K : Listed u (encX keyA)).
  { apply (H encX decX (diskA true) textA es (encX keyA) true u).
    - exact b58X.
    - apply fileA.
    - exact wfA.
    - intros b K. cbn in K. repeat (destruct K as [K | K]; [discriminate|]). destruct K.
    - intros c K. cbn in K. destruct K as [<- | [<- | []]]; (split; [apply properOf|]; split; [apply plainOf|]; apply mailsOf; reflexivity).
    - intros p Hp. vm_compute in Hp. destruct Hp as [<- | [<- | []]]; eexists; split; reflexivity.
    - exists (match atPath (fst fin) with Some i => i | None => 0 end). split; vm_compute; reflexivity.
    - exact listedA. }
  destruct (parse u) as [kn|] eqn:E; [|vm_compute in E; discriminate].
  apply (listed_parse _ _ _ E) in K. vm_compute in E. injection E as <-. vm_compute in K. discriminate.
Qed.
Print Assumptions C97_forgotten_refuted.

(** False of C93 when a check is under way at the moment the administrator
    makes the file read-only: the check moves the file away and creates a
    writable one, and a stranger that arrives later is let in. *)
Theorem C93_undone_refuted : ~ (forall enc dec s t es1 es2 i c r u, Base58 enc dec ->
  fileIs s true t -> WellFormed t -> noChmod es1 -> noChmod es2 ->
  fileIs (fst (wrun enc dec (es1 ++ [EChmod false]) (s, []))) false u ->
  nth_error (arrivals es2) i = Some c -> proper c ->
  nth_error (snd (wrun enc dec (es1 ++ [EChmod false] ++ es2) (s, []))) (List.length (arrivals es1) + i) = Some (Ret r) ->
  accepted r = true -> offers enc (Listed u) (cCerts c)).
Proof.
  intros H.
  set (es1 := EArrive connB :: steps 3 0).
  set (es2 := steps 20 0 ++ [EArrive connC] ++ steps 20 1).
  assert (K : offers encX (Listed textA) (cCerts connC)).
  { apply (H encX decX (diskA true) textA es1 es2 0 connC
      (match nth_error (snd (wrun encX decX (es1 ++ [EChmod false] ++ es2) (diskA true, []))) 1 with Some (Ret r) => r | _ => r0 end)).
    - exact b58X.
    - apply fileA.
    - exact wfA.
    - intros b K. cbn in K. repeat (destruct K as [K | K]; [discriminate|]). destruct K.
    - intros b K. cbn in K. repeat (destruct K as [K | K]; [discriminate|]). destruct K.
    - exists 0. split; vm_compute; reflexivity.
    - reflexivity.
    - apply properOf.
    - vm_compute. reflexivity.
    - vm_compute. reflexivity. }
  apply (offers_only encX _ connC keyC) in K; [exact (unlistedC K) | apply onlyOf; discriminate].
Qed.
Print Assumptions C93_undone_refuted.

(** ** C98: a refused peer does not keep others out *)

(** The TLS server: whoever came before, a peer is served if it is entitled
    to and refused if not. *)
Theorem C98_tls_partial : forall enc dec, Base58 enc dec ->
  forall cs s t, fileIs s false t -> WellFormed t -> (forall c, In c cs -> proper c) ->
  forall i c, nth_error cs i = Some c ->
    (nth_error (tlsServe enc dec cs s) i = Some Served <-> offers enc (Listed t) (cCerts c)) /\
    (nth_error (tlsServe enc dec cs s) i = Some Refused <-> ~ offers enc (Listed t) (cCerts c)).
Proof. exact tls_lock. Qed.
Print Assumptions C98_tls_partial.

Example C98_tls_partial_ex : tlsServe encX decX [connA; connC; connA] (diskA false) = [Served; Refused; Served].
Proof. vm_compute. reflexivity. Qed.

(** The QUIC server: only up to the first refusal. *)
Theorem C98_quic_partial : forall enc dec, Base58 enc dec ->
  forall cs s t, fileIs s false t -> WellFormed t -> (forall c, In c cs -> proper c) ->
  forall i c, nth_error cs i = Some c ->
    (forall j d, j < i -> nth_error cs j = Some d -> offers enc (Listed t) (cCerts d)) ->
    (nth_error (quicServe enc dec cs s) i = Some Served <-> offers enc (Listed t) (cCerts c)) /\
    (nth_error (quicServe enc dec cs s) i = Some Refused <-> ~ offers enc (Listed t) (cCerts c)).
Proof. exact quic_lock. Qed.
Print Assumptions C98_quic_partial.

Example C98_quic_partial_ex : quicServe encX decX [connA; connA; connC] (diskA false) = [Served; Served; Refused].
Proof. vm_compute. reflexivity. Qed.

(** False of the QUIC server: one stranger, and Alice is not answered. *)
Theorem C98_quic_refuted : ~ (forall enc dec cs s t i c, Base58 enc dec -> fileIs s false t -> WellFormed t ->
  (forall c, In c cs -> proper c) -> nth_error cs i = Some c -> offers enc (Listed t) (cCerts c) ->
  nth_error (quicServe enc dec cs s) i = Some Served).
Proof.
  intros H. assert (K := H encX decX [connC; connA] (diskA false) textA 1 connA b58X (fileA false) wfA).
  enough (Q : Some NotAnswered = Some Served) by discriminate. rewrite <- K.
  - vm_compute. reflexivity.
  - intros c [<- | [<- | []]]; apply properOf.
  - reflexivity.
  - apply (offers_only encX _ connA keyA); [apply onlyOf; discriminate | exact listedA].
Qed.
Print Assumptions C98_quic_refuted.

(** ** C99: a read-only file that lists nobody *)

(** Everybody is refused. *)
Theorem C99_nobody_partial : forall enc dec, Base58 enc dec ->
  forall s t c, fileIs s false t -> (forall k, ~ Listed t k) -> proper c ->
  exists r, run (verify enc dec c) s = (s, Some r) /\ accepted r = false.
Proof.
  intros enc dec B s t c F HN P. destruct (parse t) as [kn|] eqn:E.
  - destruct (run_lock enc dec B c s t F (wf_parse _ _ E) P) as (r & Er & A). exists r. split; [exact Er|].
    destruct (accepted r); [|reflexivity]. destruct (proj1 A eq_refl) as (pre & x & post & raw & _ & _ & K & _).
    exfalso. exact (HN _ K).
  - apply (run_bad enc dec c s false t F). apply parse_none. exact E.
Qed.
Print Assumptions C99_nobody_partial.

Example C99_nobody_partial_ex : fileIs (disk0 false) false [] /\ (forall k, ~ Listed [] k) /\ proper connA.
Proof.
  split; [apply file0|]. split; [|apply properOf].
  intros k H. apply (listed_parse _ _ _ parse0) in H. discriminate.
Qed.

(** False: that the server notices and stops, as the comment in cli.go 1124-1127 says. *)
Theorem C99_notices_refuted : ~ (forall enc dec s t c, Base58 enc dec -> fileIs s false t -> (forall k, ~ Listed t k) -> proper c ->
  snd (run (verify enc dec c) s) = None).
Proof.
  intros H. destruct C99_nobody_partial_ex as (F & N & P).
  destruct (C99_nobody_partial encX decX b58X _ _ _ F N P) as (r & E & _).
  pose proof (H encX decX _ _ _ b58X F N P) as K. rewrite E in K. discriminate.
Qed.
Print Assumptions C99_notices_refuted.

(** ** C100: a refused peer leaves no trace *)

(** Proved for peers that send one certificate, whatever the file. *)
Theorem C100_refused_partial : forall enc dec, Base58 enc dec ->
  forall c x s s' r, (noFile s \/ exists w t, fileIs s w t) -> cCerts c = [x] ->
  run (verify enc dec c) s = (s', Some r) -> accepted r = false -> s' = s.
Proof.
  intros enc dec B c x s s' r [F | (w & t & F)] Hc E A.
  - destruct (cHost c) as [h|] eqn:Eh.
    + destruct (run_open enc dec c s F) as (r' & E' & _); [split; congruence | congruence].
    + rewrite (run_verify_none _ _ _ _ F) in E. unfold certs in E. rewrite Hc in E. cbn [certLoop] in E.
      destruct (cKey x) as [[|a raw]|]; cbn in E; congruence.
  - rewrite (run_verify _ _ _ _ _ _ F) in E. destruct (parse t) as [kn|]; [|congruence].
    unfold certs in E. rewrite Hc in E.
    destruct (ed_dec enc dec x) as [(raw & Hx) | (Nx & Hno)].
    + destruct (cHost c) as [h|].
      * rewrite (loop_ed _ _ B _ _ _ _ _ _ _ Hx) in E. cbn zeta in E.
        destruct (hasPub (enc raw) kn).
        -- cbn [finish rGood r0 app run] in E. congruence.
        -- destruct w.
           ++ destruct F as (i & Fp & Fn). rewrite (run_writeOut _ _ _ _ Fp) in E. cbn [certLoop finish rGood r0 app run] in E.
              injection E as <- <-. discriminate.
           ++ cbn [certLoop finish rGood r0 run] in E. congruence.
      * destruct Hx as (Hx & N). cbn [certLoop] in E. rewrite Hx in E. destruct raw as [|a raw]; [congruence|].
        cbn [negb] in E. destruct (dec (enc (a :: raw))); [|cbn [run] in E; congruence].
        destruct (negb (teq t0 (a :: raw))); cbn [run] in E; congruence.
    + destruct (Hno r0 w (cHost c) (Some kn) [] true) as (e & Ee). rewrite Ee in E. cbn [run] in E. congruence.
Qed.
Print Assumptions C100_refused_partial.

Example C100_refused_partial_ex :
  snd (run (verify encX decX (from [CE None []])) (diskA true)) = Some (RES [] [] false (Some EKeyType)).
Proof. vm_compute. reflexivity. Qed.

(** False of longer chains: Carol's chain ends with a key that is not
    ed25519; Carol is refused but stays on the list. *)
Theorem C100_recorded_refuted : ~ (forall enc dec c s t s' r w u raw, Base58 enc dec ->
  fileIs s true t -> WellFormed t -> proper c -> plainHost c -> plainMails c ->
  run (verify enc dec c) s = (s', Some r) -> accepted r = false -> leaf c raw ->
  fileIs s' w u -> Listed u (enc raw) -> Listed t (enc raw)).
Proof.
  intros H. apply unlistedC.
  set (c := from [certOf keyC "carol@example.com"; CE None []]).
  set (s' := fst (run (verify encX decX c) (diskA true))).
  set (u := match atPath s' with Some i => iText (getI s' i) | None => [] end).
  apply (H encX decX c (diskA true) textA s' (RES [] [] false (Some EKeyType)) true u keyC).
  - exact b58X.
  - apply fileA.
  - exact wfA.
  - apply properOf.
  - apply plainOf.
  - intros x m [<- | [<- | []]] Hm; [|destruct Hm]. destruct Hm as [<- | []]. apply noNl. reflexivity.
  - vm_compute. reflexivity.
  - reflexivity.
  - eexists. eexists. split; [reflexivity|]. split; [reflexivity | discriminate].
  - exists 1. split; vm_compute; reflexivity.
  - destruct (parse u) as [kn|] eqn:E; [|vm_compute in E; discriminate].
    apply (listed_parse _ _ _ E). vm_compute in E. injection E as <-. vm_compute. reflexivity.
Qed.
Print Assumptions C100_recorded_refuted.

(** ** C101: without a file *)

(** Everybody whose certificates are all ed25519 is let in, nobody else, and
    no file is created. *)
Theorem C101_no_file : forall enc dec c s, noFile s -> proper c ->
  exists r, run (verify enc dec c) s = (s, Some r) /\ (accepted r = true <-> forall x, In x (cCerts c) -> isEd x).
Proof. exact run_open. Qed.
Print Assumptions C101_no_file.

Example C101_no_file_ex : noFile (FS [] None None) /\ proper connC /\ (forall x, In x (cCerts connC) -> isEd x).
Proof.
  split; [reflexivity|]. split; [apply properOf|]. intros x [<- | []]. exists keyC. split; [reflexivity | discriminate].
Qed.

(** ** C102: a check that runs alone does not panic *)

Theorem C102_alone_partial : forall enc dec, Base58 enc dec ->
  forall c s, (noFile s \/ exists w t, fileIs s w t) -> proper c ->
  exists s' r, run (verify enc dec c) s = (s', Some r).
Proof. exact run_nopanic. Qed.
Print Assumptions C102_alone_partial.

Example C102_alone_partial_ex : exists s' r,
  run (verify encX decX connC) (FS [IN (txt "what is this") true] (Some 0) None) = (s', Some r) /\ accepted r = false.
Proof. eexists. eexists. split; [vm_compute; reflexivity | reflexivity]. Qed.

(** ** C103: a malformed file lets nobody in *)

(** One line that is neither blank, a comment, a single word nor an entry,
    and nobody is let in, at any interleaving; the file stays as it is. *)
Theorem C103_malformed : forall enc dec s w t es, fileIs s w t -> ~ WellFormed t -> noChmod es ->
  fst (wrun enc dec es (s, [])) = s /\
  forall p r, In p (snd (wrun enc dec es (s, []))) -> p <> Panic /\ (p = Ret r -> accepted r = false).
Proof.
  intros enc dec s w t es F W HN.
  assert (PE : parse t = None).
  { destruct (parse t) as [kn|] eqn:E; [exfalso; exact (W (wf_parse _ _ E)) | reflexivity]. }
  destruct (quiet enc dec s es HN) as (E & F2).
  { intros c _. apply (pure_verify enc dec c s w t F). intros kn K. congruence. }
  split; [exact E|]. intros p r Hp.
  assert (R : exists c, run p s = run (verify enc dec c) s).
  { revert Hp. clear - F2. induction F2 as [|a b l m (_ & Hab) F2 IH]; intros Hp; [destruct Hp|]. destruct Hp as [<- | Hp].
    - exists b. exact Hab.
    - apply IH. exact Hp. }
  destruct R as (c & R). destruct (run_bad enc dec c s w t F W) as (r' & Er & A). rewrite Er in R.
  split; [intros ->; discriminate|]. intros ->. cbn [run] in R. congruence.
Qed.
Print Assumptions C103_malformed.

Example C103_malformed_ex : ~ WellFormed (textA ++ txt "what is this").
Proof. apply parse_none. vm_compute. reflexivity. Qed.
