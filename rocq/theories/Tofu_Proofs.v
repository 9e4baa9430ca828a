(** Running the check: alone, cut off, beside others. *)
From Coq Require Import List Bool Ascii String Arith Lia.
From Verif Require Import Tofu_Model Tofu_Spec Tofu_Text.
Import ListNotations.
Local Opaque header prefix.

(** ** Inodes *)

Lemma nth_getI : forall s i f, nth_error (inodes s) i = Some f -> getI s i = f.
Proof. intros s i f H. unfold getI. apply nth_error_nth. exact H. Qed.

Lemma setNth_last : forall A (l : list A) x y, setNth (List.length l) y (l ++ [x]) = l ++ [y].
Proof. induction l as [|z l IH]; intros x y; cbn [List.length app setNth]; [reflexivity | rewrite IH; reflexivity]. Qed.

Lemma nth_last : forall A (l : list A) x, nth_error (l ++ [x]) (List.length l) = Some x.
Proof. induction l as [|z l IH]; intros x; [reflexivity | apply IH]. Qed.

Lemma nth_keep : forall A (l : list A) x i f, nth_error l i = Some f -> nth_error (l ++ [x]) i = Some f.
Proof.
  intros A l x i f H. rewrite nth_error_app1; [exact H|]. apply nth_error_Some. congruence.
Qed.

Lemma nth_setNth : forall A (l : list A) i x f, nth_error l i = Some f -> nth_error (setNth i x l) i = Some x.
Proof. induction l as [|y l IH]; intros [|i] x f H; try discriminate; cbn in *; [reflexivity | eapply IH; exact H]. Qed.

Lemma writeAt_end : forall c t, writeAt (List.length c) t c = c ++ t.
Proof.
  intros c t. unfold writeAt. rewrite firstn_all, Nat.sub_diag. cbn [repeat app].
  rewrite skipn_all2 by lia. rewrite app_nil_r. reflexivity.
Qed.

Lemma exec_write : forall nodes c p o t,
  exec (OWrite (List.length nodes) (List.length c) t) (FS (nodes ++ [IN c true]) p o) =
  (FS (nodes ++ [IN (c ++ t) true]) p o, AOk).
Proof.
  intros nodes c p o t. cbn [exec]. rewrite (nth_getI _ _ (IN c true)) by apply nth_last.
  cbn [iText iWritable inodes atPath atOld]. rewrite setNth_last, writeAt_end. reflexivity.
Qed.

Definition linesText (hs : list knownKey) : text := List.concat (map (fun k => kkString k ++ [nl]) hs).

Lemma run_writeLines : forall hs nodes c p o k,
  run (writeLines (List.length nodes) (List.length c) hs k) (FS (nodes ++ [IN c true]) p o) =
  run k (FS (nodes ++ [IN (c ++ linesText hs) true]) p o).
Proof.
  induction hs as [|h hs IH]; intros nodes c p o k; cbn [writeLines].
  - unfold linesText. cbn [map List.concat]. rewrite app_nil_r. reflexivity.
  - cbn [run]. rewrite exec_write.
    rewrite <- app_length. rewrite IH. unfold linesText. cbn [map List.concat]. rewrite <- !app_assoc. reflexivity.
Qed.

(** [written s hs]: the file system after WriteOut. *)
Definition written (s : fsys) (hs : list knownKey) : fsys :=
  FS (inodes s ++ [IN (fileText hs) true]) (Some (List.length (inodes s))) (atPath s).

Lemma run_writeOut : forall kn k s i, atPath s = Some i ->
  run (writeOut kn k) s = run k (written s (hosts kn)).
Proof.
  intros kn k [nodes p o] i Hp. cbn [atPath] in Hp. subst p.
  transitivity (run (Do (OWrite (List.length nodes) (List.length (@nil ascii)) header)
      (fun _ => writeLines (List.length nodes) (List.length header) (hosts kn) k))
    (FS (nodes ++ [IN [] true]) (Some (List.length nodes)) (Some i))); [reflexivity|].
  cbn [run]. rewrite exec_write. cbn [app]. rewrite run_writeLines. reflexivity.
Qed.

Section Runs.
Variable enc : text -> text.
Variable dec : text -> option text.
Hypothesis B : Base58 enc dec.

Lemma enc_inj : forall x y, enc x = enc y -> x = y.
Proof. intros x y H. pose proof (b_dec _ _ B x) as E. rewrite H, (b_dec _ _ B y) in E. congruence. Qed.

Lemma enc_clean : forall x, noSpace (enc x) /\ ~ In colon (enc x).
Proof.
  intros x. split.
  - intros c H. exact (proj1 (b_chars _ _ B x c H)).
  - intros H. exact (proj2 (b_chars _ _ B x colon H) eq_refl).
Qed.

(** one round of the loop on an ed25519 certificate. *)
Lemma loop_ed : forall tofu h kn r x rest raw, edKey x raw ->
  certLoop enc dec true tofu (Some h) (Some kn) r (x :: rest) =
  let kh := KK h ed25519 (enc raw) (mails (cMails x)) in
  let combo := identityString kh in
  if hasPub (enc raw) kn
  then finish (RES (rGood r ++ [combo]) (rBad r) false None)
  else if tofu
  then writeOut (addKnown kh kn)
         (certLoop enc dec true tofu (Some h) (Some (addKnown kh kn))
            (RES (rGood r ++ [combo]) (rBad r) true None) rest)
  else certLoop enc dec true tofu (Some h) (Some kn)
         (RES (rGood r) (rBad r ++ [combo]) (rNew r) (Some EUnknown)) rest.
Proof.
  intros tofu h kn r x rest raw (E & N). cbn [certLoop]. rewrite E.
  destruct raw as [|a raw]; [congruence|]. cbn [negb].
  rewrite (b_dec _ _ B). rewrite teq_refl. reflexivity.
Qed.

Lemma ed_dec : forall x, isEd x \/ (~ isEd x /\ forall r tofu h kn rest rec, exists e,
  certLoop enc dec rec tofu h kn r (x :: rest) = Ret (RES [] [] false (Some e))).
Proof.
  intros x. destruct (cKey x) as [[|a raw]|] eqn:E.
  - right. split; [intros (raw & H & N); congruence|]. intros. exists EEmptyKey. cbn [certLoop]. rewrite E. reflexivity.
  - left. exists (a :: raw). split; [exact E | discriminate].
  - right. split; [intros (raw & H & N); congruence|]. intros. exists EKeyType. cbn [certLoop]. rewrite E. reflexivity.
Qed.

Definition admits : (text -> Prop) -> list cert -> Prop := offers enc.

Lemma admits_cons : forall P x raw rest, edKey x raw ->
  admits P (x :: rest) <-> P (enc raw) \/ admits P rest.
Proof.
  intros P x raw rest Hx. split.
  - intros (pre & y & post & rw & E & Hy & Hp & Hpre). destruct pre as [|z pre]; injection E as -> ->.
    + left. destruct Hx as (Hx & _), Hy as (Hy & _). congruence.
    + right. exists pre, y, post, rw. repeat (split; [assumption || reflexivity|]).
      intros q Hq. apply Hpre. right. exact Hq.
  - intros [H | (pre & y & post & rw & -> & Hy & Hp & Hpre)].
    + exists [], x, rest, raw. repeat (split; [assumption || reflexivity|]). intros y [].
    + exists (x :: pre), y, post, rw. repeat (split; [assumption || reflexivity|]).
      intros q [<- | Hq]; [exists raw; exact Hx | auto].
Qed.

Lemma admits_no : forall P x rest, ~ isEd x -> ~ admits P (x :: rest).
Proof.
  intros P x rest H (pre & y & post & rw & E & Hy & _ & Hpre). apply H.
  destruct pre as [|z pre]; injection E as -> _; [exists rw; exact Hy | apply Hpre; left; reflexivity].
Qed.

(** the loop with a file that must not be written. *)
Lemma loop_lock : forall h kn cs r, rGood r = [] ->
  exists r', certLoop enc dec true false (Some h) (Some kn) r cs = Ret r' /\
    (accepted r' = true <-> (cs = [] /\ rErr r = None) \/ admits (fun k => In k (pubKeys kn)) cs).
Proof.
  intros h kn. induction cs as [|x cs IH]; intros r Hr.
  - cbn [certLoop]. unfold finish. rewrite Hr. exists r. split; [reflexivity|]. unfold accepted.
    split.
    + intros H. left. split; [reflexivity|]. destruct (rErr r); [discriminate | reflexivity].
    + intros [(_ & ->) | (pre & y & post & rw & E & _)]; [reflexivity|]. destruct pre; discriminate.
  - destruct (ed_dec x) as [(raw & Hx) | (Nx & Hno)].
    + rewrite (loop_ed _ _ _ _ _ _ _ Hx). cbn zeta. pose proof (admits_cons (fun k => In k (pubKeys kn)) _ _ cs Hx) as AC.
      destruct (hasPub (enc raw) kn) eqn:Hp.
      * unfold finish. cbn [rGood]. rewrite Hr. cbn [app]. eexists. split; [reflexivity|].
        split; [|reflexivity]. intros _. right. apply AC. left. apply hasPub_spec. exact Hp.
      * cbv iota.
        destruct (IH (RES (rGood r) (rBad r ++ [identityString (KK h ed25519 (enc raw) (mails (cMails x)))]) (rNew r) (Some EUnknown)) Hr) as (r' & E & A).
        exists r'. split; [exact E|]. rewrite A, AC. cbn [rErr]. split.
        -- intros [(_ & K) | K]; [discriminate | right; right; exact K].
        -- intros [(K & _) | [K | K]]; [discriminate | | right; exact K].
           apply hasPub_spec in K. congruence.
    + destruct (Hno r false (Some h) (Some kn) cs true) as (e & E). rewrite E. eexists. split; [reflexivity|].
      cbn [accepted rErr]. split; [discriminate|]. intros [(K & _) | K]; [discriminate|].
      exfalso. exact (admits_no _ _ _ Nx K).
Qed.

(** the loop with a file that may be written, on entries that survive. *)
Lemma addKnown_good : forall k kn, good kn -> cleanKK k -> good (addKnown k kn) /\
  forall x, In x (pubKeys (addKnown k kn)) <-> x = kPub k \/ In x (pubKeys kn).
Proof.
  intros k kn [G1 G2] C. unfold addKnown. destruct (hasPub (kPub k) kn) eqn:E.
  - split; [split; assumption|]. intros x. apply hasPub_spec in E. split; [auto|]. intros [-> | H]; assumption.
  - split; [split; cbn [hosts pubKeys]|].
    + apply Forall_app. split; [exact G1 | constructor; [exact C | constructor]].
    + intros x. rewrite map_app, in_app_iff. cbn [map In]. rewrite G2. tauto.
    + intros x. cbn [pubKeys In]. split; intros [H | H]; auto.
Qed.

Lemma mails_nl : forall l, (forall m, In m l -> ~ In nl m) -> ~ In nl (mails l).
Proof.
  induction l as [|m l IH]; intros H; [intros []|]. cbn [mails].
  assert (Hm : ~ In nl m) by (apply H; left; reflexivity).
  assert (Hl : ~ In nl (mails l)) by (apply IH; intros m' Hm'; apply H; right; exact Hm').
  destruct l as [|m2 l]; [exact Hm|]. intros K. apply in_app_or in K as [K|K]; [exact (Hm K)|].
  apply in_app_or in K as [[K|[]]|K]; [discriminate | exact (Hl K)].
Qed.

Definition okHost (h : text) : Prop := h <> [] /\ noSpace h /\ (forall h', h <> hash :: h').
Definition okCert (x : cert) : Prop := forall m, In m (cMails x) -> ~ In nl m.

Lemma kh_clean : forall h raw x, okHost h -> okCert x -> cleanKK (KK h ed25519 (enc raw) (mails (cMails x))).
Proof.
  intros h raw x (H1 & H2 & H3) Hx. unfold cleanKK. cbn [kAddr kType kPub kEmails].
  pose proof (enc_clean raw) as [E1 E2].
  repeat (split; [assumption || reflexivity|]). apply mails_nl. exact Hx.
Qed.

Lemma finish_good : forall r, rGood r <> [] -> finish r = Ret (RES (rGood r) (rBad r) (rNew r) None).
Proof. intros r H. unfold finish. destruct (rGood r); [congruence | reflexivity]. Qed.

Lemma loop_tofu : forall h, okHost h -> forall cs kn r s t,
  good kn -> fileIs s true t -> WellFormed t -> (forall k, In k (pubKeys kn) <-> Listed t k) ->
  rErr r = None -> (forall x, In x cs -> okCert x) ->
  exists s' r' t', run (certLoop enc dec true true (Some h) (Some kn) r cs) s = (s', Some r') /\
    fileIs s' true t' /\ WellFormed t' /\
    (forall k, Listed t k -> Listed t' k) /\
    (forall k, Listed t' k -> Listed t k \/ exists x raw, In x cs /\ edKey x raw /\ k = enc raw) /\
    ((forall x, In x cs -> isEd x) -> accepted r' = true) /\
    (forall x rest raw, cs = x :: rest -> edKey x raw -> Listed t' (enc raw)).
Proof.
  intros h Hh. induction cs as [|x cs IH]; intros kn r s t G F W L Hr Hc.
  - cbn [certLoop]. assert (E : exists r', finish r = Ret r' /\ accepted r' = true).
    { unfold finish, accepted. destruct (rGood r); eexists; (split; [reflexivity|]); [rewrite Hr|]; reflexivity. }
    destruct E as (r' & -> & A). exists s, r', t. split; [reflexivity|]. repeat (split; [assumption|]).
    split; [auto|]. split; [auto|]. split; [auto|]. intros x rest raw K. discriminate.
  - destruct (ed_dec x) as [(raw & Hx) | (Nx & Hno)].
    + rewrite (loop_ed _ _ _ _ _ _ _ Hx). cbn zeta. destruct (hasPub (enc raw) kn) eqn:Hp.
      * rewrite finish_good by (cbn [rGood]; destruct (rGood r); discriminate).
        exists s. eexists. exists t. split; [reflexivity|]. repeat (split; [assumption|]).
        split; [auto|]. split; [auto|]. split; [reflexivity|].
        intros y rest raw' E (Hy & _). injection E as <- <-. destruct Hx as (Hx & _).
        assert (raw' = raw) as -> by congruence. apply L. apply hasPub_spec. exact Hp.
      * destruct F as (i & Fp & Fn). rewrite (run_writeOut _ _ _ _ Fp).
        set (kh := KK h ed25519 (enc raw) (mails (cMails x))).
        assert (C : cleanKK kh) by (apply kh_clean; [exact Hh | apply Hc; left; reflexivity]).
        destruct (addKnown_good kh kn G C) as (G' & L').
        destruct (fileText_listed (hosts (addKnown kh kn)) (proj1 G')) as (W1 & L1).
        assert (L2 : forall k, Listed (fileText (hosts (addKnown kh kn))) k <-> k = enc raw \/ Listed t k).
        { intros k. rewrite L1, <- (proj2 G' k), L', L. reflexivity. }
        destruct (IH (addKnown kh kn) (RES (rGood r ++ [identityString kh]) (rBad r) true None)
                    (written s (hosts (addKnown kh kn))) (fileText (hosts (addKnown kh kn))))
          as (s' & r' & t' & R & F' & W' & K1 & K2 & K3 & K4).
        { exact G'. }
        { exists (List.length (inodes s)). split; [reflexivity|]. apply nth_last. }
        { exact W1. }
        { intros k. rewrite L', L, L2. reflexivity. }
        { reflexivity. }
        { intros y Hy. apply Hc. right. exact Hy. }
        exists s', r', t'. split; [exact R|]. split; [exact F'|]. split; [exact W'|].
        split; [intros k Hk; apply K1, L2; auto|]. split; [|split].
        -- intros k Hk. apply K2 in Hk as [Hk | (y & rw & Hy & E1 & E2)].
           ++ apply L2 in Hk as [-> | Hk]; [|auto]. right. exists x, raw. split; [left; reflexivity | auto].
           ++ right. exists y, rw. split; [right; exact Hy | auto].
        -- intros A. apply K3. intros y Hy. apply A. right. exact Hy.
        -- intros y rest raw' E (Hy & _). injection E as <- <-. destruct Hx as (Hx & _).
           assert (raw' = raw) as -> by congruence. apply K1, L2. auto.
    + destruct (Hno r true (Some h) (Some kn) cs true) as (e & E). rewrite E.
      exists s. eexists. exists t. split; [reflexivity|]. repeat (split; [assumption|]).
      split; [auto|]. split; [auto|]. split.
      * intros A. exfalso. apply Nx. apply A. left. reflexivity.
      * intros y rest raw K Hy. injection K as <- <-. exfalso. apply Nx. exists raw. exact Hy.
Qed.

(** no panic, whatever the file says. *)
Lemma loop_nopanic : forall tofu h cs kn r s i, atPath s = Some i ->
  exists s' r', run (certLoop enc dec true tofu (Some h) (Some kn) r cs) s = (s', Some r').
Proof.
  intros tofu h. induction cs as [|x cs IH]; intros kn r s i Hp.
  - cbn [certLoop]. unfold finish. eexists. eexists. reflexivity.
  - destruct (ed_dec x) as [(raw & Hx) | (Nx & Hno)].
    + rewrite (loop_ed _ _ _ _ _ _ _ Hx). cbn zeta. destruct (hasPub (enc raw) kn).
      * unfold finish. eexists. eexists. reflexivity.
      * destruct tofu; [|eapply IH; exact Hp]. rewrite (run_writeOut _ _ _ _ Hp). eapply IH. reflexivity.
    + destruct (Hno r tofu (Some h) (Some kn) cs true) as (e & E). rewrite E. eexists. eexists. reflexivity.
Qed.

(** without a file nothing is looked up or written. *)
Lemma loop_open : forall tofu h kn cs r, rGood r = [] -> rErr r = None ->
  exists r', certLoop enc dec false tofu h kn r cs = Ret r' /\
    (accepted r' = true <-> forall x, In x cs -> isEd x).
Proof.
  intros tofu h kn. induction cs as [|x cs IH]; intros r Hg He.
  - cbn [certLoop]. unfold finish. rewrite Hg. exists r. split; [reflexivity|]. unfold accepted. rewrite He.
    split; [intros _ x [] | reflexivity].
  - destruct (ed_dec x) as [(raw & Hx) | (Nx & Hno)].
    + destruct (IH r Hg He) as (r' & E & A). exists r'. split.
      * destruct Hx as (Hx & N). cbn [certLoop]. rewrite Hx. destruct raw; [congruence | exact E].
      * rewrite A. split; [intros H y [<- | Hy]; [exists raw; exact Hx | auto] | intros H y Hy; apply H; right; exact Hy].
    + destruct (Hno r tofu h kn cs false) as (e & E). rewrite E. eexists. split; [reflexivity|].
      cbn [accepted rErr]. split; [discriminate|]. intros H. exfalso. apply Nx, H. left. reflexivity.
Qed.

(** ** The whole check *)

Lemma run_verify : forall c s w t, fileIs s w t ->
  run (verify enc dec c) s =
  match parse t with
  | None => (s, Some (RES [] [] false (Some EFormat)))
  | Some kn => run (certs enc dec true w (Some kn) c) s
  end.
Proof.
  intros c s w t (i & Hp & Hn). unfold verify. cbn [run exec]. rewrite Hp. cbn [run exec]. rewrite Hp.
  cbn [run exec]. rewrite Hp, (nth_getI _ _ _ Hn). cbn [run exec iWritable]. rewrite Hp. cbn [run exec].
  rewrite Hp, (nth_getI _ _ _ Hn). cbn [iText]. destruct (parse t); reflexivity.
Qed.

Lemma run_verify_none : forall c s, noFile s ->
  run (verify enc dec c) s = run (certs enc dec false true None c) s.
Proof. intros c s H. unfold verify. cbn [run exec]. rewrite H. reflexivity. Qed.

Lemma run_lock : forall c s t, fileIs s false t -> WellFormed t -> proper c ->
  exists r, run (verify enc dec c) s = (s, Some r) /\ (accepted r = true <-> admits (Listed t) (cCerts c)).
Proof.
  intros c s t F W (Hc & Hh). rewrite (run_verify _ _ _ _ F).
  destruct (parse_total t W) as (kn & E). rewrite E. destruct (parse_some _ _ E) as (G & _ & L).
  unfold certs. destruct (cHost c) as [h|]; [|congruence].
  destruct (cCerts c) as [|x cs]; [congruence|].
  destruct (loop_lock h kn (x :: cs) r0 eq_refl) as (r' & -> & A). exists r'. split; [reflexivity|].
  rewrite A. split.
  - intros [(K & _) | (pre & y & post & rw & E1 & E2 & E3 & E4)]; [discriminate|].
    exists pre, y, post, rw. repeat (split; [assumption|]). split; [apply L; exact E3 | exact E4].
  - intros (pre & y & post & rw & E1 & E2 & E3 & E4). right.
    exists pre, y, post, rw. repeat (split; [assumption|]). split; [apply L; exact E3 | exact E4].
Qed.

Lemma run_bad : forall c s w t, fileIs s w t -> ~ WellFormed t ->
  exists r, run (verify enc dec c) s = (s, Some r) /\ accepted r = false.
Proof.
  intros c s w t F W. rewrite (run_verify _ _ _ _ F). destruct (parse t) as [kn|] eqn:E.
  - exfalso. apply W. eapply parse_some. exact E.
  - eexists. split; reflexivity.
Qed.

Lemma run_tofu : forall c s t, fileIs s true t -> WellFormed t -> proper c -> plainHost c -> plainMails c ->
  exists s' r t', run (verify enc dec c) s = (s', Some r) /\
    fileIs s' true t' /\ WellFormed t' /\
    (forall k, Listed t k -> Listed t' k) /\
    (forall k, Listed t' k -> Listed t k \/ exists x raw, In x (cCerts c) /\ edKey x raw /\ k = enc raw) /\
    ((forall x, In x (cCerts c) -> isEd x) -> accepted r = true) /\
    (forall x rest raw, cCerts c = x :: rest -> edKey x raw -> Listed t' (enc raw)).
Proof.
  intros c s t F W (Hc & Hh) PH PM. rewrite (run_verify _ _ _ _ F).
  destruct (parse_total t W) as (kn & E). rewrite E. destruct (parse_some _ _ E) as (G & _ & L).
  unfold certs. destruct (cHost c) as [h|] eqn:Eh; [|congruence].
  assert (E3 : match cCerts c with [] => Panic | (x :: l) as cs => certLoop enc dec true true (Some h) (Some kn) r0 cs end
    = certLoop enc dec true true (Some h) (Some kn) r0 (cCerts c)) by (destruct (cCerts c); [congruence | reflexivity]).
  rewrite E3. apply loop_tofu; try assumption; [exact (PH h Eh) | reflexivity |].
  intros x Hx m Hm. exact (PM x m Hx Hm).
Qed.

Lemma run_open : forall c s, noFile s -> proper c ->
  exists r, run (verify enc dec c) s = (s, Some r) /\ (accepted r = true <-> forall x, In x (cCerts c) -> isEd x).
Proof.
  intros c s F (Hc & _). rewrite (run_verify_none _ _ F). unfold certs.
  destruct (cCerts c) as [|x cs]; [congruence|].
  destruct (loop_open true (cHost c) None (x :: cs) r0 eq_refl eq_refl) as (r' & -> & A).
  exists r'. split; [reflexivity | exact A].
Qed.

Lemma run_nopanic : forall c s, (noFile s \/ exists w t, fileIs s w t) -> proper c ->
  exists s' r, run (verify enc dec c) s = (s', Some r).
Proof.
  intros c s [F | (w & t & F)] P.
  - destruct (run_open c s F P) as (r & E & _). eauto.
  - rewrite (run_verify _ _ _ _ F). destruct (parse t) as [kn|]; [|eauto].
    destruct P as (Hc & Hh). unfold certs. destruct (cHost c) as [h|]; [|congruence].
    destruct (cCerts c) as [|x cs]; [congruence|]. destruct F as (i & Fp & _).
    destruct (loop_nopanic w h (x :: cs) kn r0 s i Fp) as (s' & r & E). eauto.
Qed.

(** a peer whose first certificate is known is let in and nothing is written. *)
Lemma run_known : forall c s w t x rest raw, fileIs s w t -> WellFormed t -> cHost c <> None ->
  cCerts c = x :: rest -> edKey x raw -> Listed t (enc raw) ->
  exists r, run (verify enc dec c) s = (s, Some r) /\ accepted r = true.
Proof.
  intros c s w t x rest raw F W Hh Hc Hx HL. rewrite (run_verify _ _ _ _ F).
  destruct (parse_total t W) as (kn & E). rewrite E. destruct (parse_some _ _ E) as (G & _ & L).
  unfold certs. rewrite Hc. destruct (cHost c) as [h|]; [|congruence].
  rewrite (loop_ed _ _ _ _ _ _ _ Hx). cbn zeta.
  apply L, hasPub_spec in HL. rewrite HL. eexists. split; reflexivity.
Qed.
End Runs.
