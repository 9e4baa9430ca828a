(** Checks beside each other, checks that are cut off, checks in a row. *)
From Coq Require Import List Bool Ascii String Arith Lia.
From Verif Require Import Tofu_Model Tofu_Spec Tofu_Text Tofu_Proofs.
Import ListNotations.
Local Opaque header prefix.

(** ** Programs that change nothing *)

Fixpoint pure (p : prog) (s : fsys) : Prop :=
  match p with
  | Do o k => fst (exec o s) = s /\ pure (k (snd (exec o s))) s
  | _ => True
  end.

Lemma nth_setNth_other : forall A (l : list A) i j x, i <> j -> nth_error (setNth i x l) j = nth_error l j.
Proof.
  induction l as [|y l IH]; intros [|i] [|j] x H; try reflexivity; cbn [setNth nth_error]; [congruence|].
  apply IH. congruence.
Qed.

Lemma Forall2_nth : forall A B (R : A -> B -> Prop) l m, Forall2 R l m ->
  forall i b, nth_error m i = Some b -> exists a, nth_error l i = Some a /\ R a b.
Proof.
  intros A B R l m H. induction H as [|a b l m Hab H IH]; intros [|i] c E; try discriminate; cbn in *.
  - injection E as <-. eauto.
  - apply IH. exact E.
Qed.

Lemma Forall2_setNth : forall A B (R : A -> B -> Prop) l m, Forall2 R l m ->
  forall i a x, nth_error l i = Some a -> (forall b, R a b -> R x b) -> Forall2 R (setNth i x l) m.
Proof.
  intros A B R l m H. induction H as [|a b l m Hab H IH]; intros [|i] a' x E K; try discriminate; cbn in *.
  - injection E as <-. constructor; auto.
  - constructor; [exact Hab|]. eapply IH; eassumption.
Qed.

Section Conc.
Variable enc : text -> text.
Variable dec : text -> option text.
Hypothesis B : Base58 enc dec.

Lemma wrun_snoc : forall es e w, wrun enc dec (es ++ [e]) w = wstep enc dec e (wrun enc dec es w).
Proof. intros es e w. unfold wrun. rewrite fold_left_app. reflexivity. Qed.

Lemma quiet : forall s es, noChmod es -> (forall c, In c (arrivals es) -> pure (verify enc dec c) s) ->
  fst (wrun enc dec es (s, [])) = s /\
  Forall2 (fun p c => pure p s /\ run p s = run (verify enc dec c) s) (snd (wrun enc dec es (s, []))) (arrivals es).
Proof.
  intros s es. induction es as [|e es IH] using rev_ind; intros HN HP.
  - split; [reflexivity | constructor].
  - assert (HN' : noChmod es) by (intros b K; apply (HN b), in_or_app; auto).
    assert (EA : arrivals (es ++ [e]) = arrivals es ++ arrivals [e]) by (unfold arrivals; apply flat_map_app).
    destruct IH as (Es & F).
    { exact HN'. }
    { intros c Hc. apply HP. rewrite EA. apply in_or_app. auto. }
    rewrite wrun_snoc, EA. destruct (wrun enc dec es (s, [])) as (s1, ps). cbn [fst snd] in *. subst s1.
    destruct e as [c | i | b]; cbn [wstep fst snd].
    + split; [reflexivity|]. apply Forall2_app; [exact F|]. constructor; [|constructor]. split; [|reflexivity].
      apply HP. rewrite EA. apply in_or_app. right. left. reflexivity.
    + cbn [arrivals flat_map]. rewrite app_nil_r. unfold pstep. cbn [fst snd].
      destruct (nth_error ps i) as [[r| |o k]|] eqn:En; cbn [fst snd]; try (split; [reflexivity | exact F]).
      assert (Hp : pure (Do o k) s).
      { clear - F En. revert i En. induction F as [|a b l m (H & _) F IH]; intros [|i] En; try discriminate.
        - cbn in En. injection En as ->. exact H.
        - eapply IH. exact En. }
      destruct Hp as (Hp1 & Hp2). destruct (exec o s) as (s', a) eqn:Ex. cbn [fst snd] in *. subst s'.
      split; [reflexivity|]. eapply Forall2_setNth; [exact F | exact En |].
      intros c (_ & Hr). split; [exact Hp2|]. rewrite <- Hr. cbn [run]. rewrite Ex. reflexivity.
    + exfalso. apply (HN b), in_or_app. right. left. reflexivity.
Qed.

Definition still (p : prog) : Prop := match p with Do _ _ => False | _ => True end.

Lemma loop_lock_still : forall host kn cs r, still (certLoop enc dec true false host (Some kn) r cs).
Proof.
  intros host kn. induction cs as [|x cs IH]; intros r; cbn [certLoop].
  - unfold finish. destruct (rGood r); exact I.
  - destruct (cKey x) as [[|a raw]|]; try exact I. cbn [negb].
    destruct (dec (enc (a :: raw))) as [raw'|]; [|exact I].
    destruct (teq raw' (a :: raw)); [cbn [negb] | exact I].
    destruct host as [h|]; [|exact I]. destruct (hasPub _ kn); [|apply IH].
    unfold finish. cbn [rGood]. destruct (rGood r ++ _); exact I.
Qed.

Lemma pure_verify : forall c s w t, fileIs s w t ->
  (forall kn, parse t = Some kn -> still (certs enc dec true w (Some kn) c)) -> pure (verify enc dec c) s.
Proof.
  intros c s w t (i & Hp & Hn) H. unfold verify. cbn [pure exec fst snd]. split; [reflexivity|]. rewrite Hp.
  cbn [pure exec fst snd]. split; [reflexivity|]. rewrite Hp. cbn [pure exec fst snd]. split; [reflexivity|].
  rewrite Hp, (nth_getI _ _ _ Hn). cbn [iWritable pure exec fst snd]. split; [reflexivity|]. rewrite Hp.
  cbn [pure exec fst snd]. split; [reflexivity|]. rewrite Hp, (nth_getI _ _ _ Hn). cbn [iText].
  destruct (parse t) as [kn|] eqn:E; [|exact I]. specialize (H kn eq_refl).
  destruct (certs enc dec true w (Some kn) c); [exact I | exact I | destruct H].
Qed.

Lemma pure_lock : forall c s t, fileIs s false t -> pure (verify enc dec c) s.
Proof.
  intros c s t F. eapply pure_verify; [exact F|]. intros kn _. unfold certs.
  destruct (cCerts c); [exact I | apply loop_lock_still].
Qed.

Lemma pure_known : forall c s w t raw, fileIs s w t -> leaf c raw -> Listed t (enc raw) -> pure (verify enc dec c) s.
Proof.
  intros c s w t raw F (x & rest & Hc & Hx) HL. eapply pure_verify; [exact F|]. intros kn E.
  destruct (parse_some _ _ E) as (_ & _ & L). unfold certs. rewrite Hc.
  destruct (cHost c) as [h|].
  - rewrite (loop_ed _ _ B _ _ _ _ _ _ _ Hx). cbn zeta. apply L, hasPub_spec in HL. rewrite HL.
    unfold finish. cbn [rGood]. destruct (rGood r0 ++ _); exact I.
  - destruct Hx as (Hx & N). cbn [certLoop]. rewrite Hx. destruct raw as [|a raw]; [exact I|]. cbn [negb].
    destruct (dec _); [|exact I]. destruct (negb _); exact I.
Qed.

(** ** Killed at any moment *)

Section Cut.
Variable K : text -> Prop.

(** [kept s]: the file or file.old lists all of [K]. *)
Definition kept (s : fsys) : Prop :=
  exists j f, (atPath s = Some j \/ atOld s = Some j) /\ nth_error (inodes s) j = Some f /\
    forall k, K k -> Listed (iText f) k.

Lemma cut_writeLines : forall hs nodes c p j f k,
  nth_error nodes j = Some f -> (forall x, K x -> Listed (iText f) x) ->
  (forall n, kept (runCut n k (FS (nodes ++ [IN (c ++ linesText hs) true]) p (Some j)))) ->
  forall n, kept (runCut n (writeLines (List.length nodes) (List.length c) hs k) (FS (nodes ++ [IN c true]) p (Some j))).
Proof.
  induction hs as [|h hs IH]; intros nodes c p j f k Hj Hf Hk n; cbn [writeLines].
  - unfold linesText in Hk. cbn [map List.concat] in Hk. rewrite app_nil_r in Hk. apply Hk.
  - destruct n as [|n]; cbn [runCut].
    + exists j, f. split; [right; reflexivity|]. split; [apply nth_keep; exact Hj | exact Hf].
    + rewrite exec_write. rewrite <- app_length. eapply IH; [exact Hj | exact Hf|].
      intros m. specialize (Hk m). unfold linesText in *. cbn [map List.concat] in Hk. rewrite <- !app_assoc in *. exact Hk.
Qed.

Lemma cut_writeOut : forall kn k s i f, atPath s = Some i -> nth_error (inodes s) i = Some f ->
  (forall x, K x -> Listed (iText f) x) ->
  (forall n, kept (runCut n k (written s (hosts kn)))) ->
  forall n, kept (runCut n (writeOut kn k) s).
Proof.
  intros kn k [nodes p o] i f Hp Hn Hf Hk n. cbn [atPath inodes] in *. subst p.
  assert (P0 : forall o', kept (FS nodes (Some i) o')).
  { intros o'. exists i, f. split; [left; reflexivity|]. split; [exact Hn | exact Hf]. }
  destruct n as [|n]; [apply P0|]. unfold writeOut. cbn [runCut exec atPath inodes atOld].
  destruct n as [|n]; [apply P0|]. cbn [runCut exec atPath inodes atOld].
  destruct n as [|n]; [apply P0|]. cbn [runCut exec atPath inodes atOld].
  destruct n as [|n]; [exists i, f; split; [right; reflexivity | split; [exact Hn | exact Hf]]|].
  cbn [runCut exec atPath inodes atOld].
  destruct n as [|n].
  { exists i, f. split; [right; reflexivity|]. split; [apply nth_keep; exact Hn | exact Hf]. }
  change (kept (let (s', a) := exec (OWrite (List.length nodes) (List.length (@nil ascii)) header)
      (FS (nodes ++ [IN [] true]) (Some (List.length nodes)) (Some i)) in
    runCut n (writeLines (List.length nodes) (List.length header) (hosts kn) k) s')).
  rewrite exec_write. cbn [app]. eapply cut_writeLines; [exact Hn | exact Hf | exact Hk].
Qed.

Lemma cut_still : forall p s n, still p -> runCut n p s = s.
Proof. intros [r| |o k] s [|n] H; try reflexivity. destruct H. Qed.

Lemma loop_cut : forall h, okHost h -> forall cs kn r s t,
  good kn -> fileIs s true t -> (forall k, In k (pubKeys kn) <-> Listed t k) -> (forall k, K k -> Listed t k) ->
  (forall x, In x cs -> okCert x) ->
  forall n, kept (runCut n (certLoop enc dec true true (Some h) (Some kn) r cs) s).
Proof.
  intros h Hh. induction cs as [|x cs IH]; intros kn r s t G F L HK Hc n.
  - assert (P0 : kept s) by (destruct F as (i & Fp & Fn); exists i, (IN t true); auto).
    cbn [certLoop]. rewrite cut_still; [exact P0|]. unfold finish. destruct (rGood r); exact I.
  - assert (P0 : kept s) by (destruct F as (i & Fp & Fn); exists i, (IN t true); auto).
    destruct (ed_dec enc dec x) as [(raw & Hx) | (Nx & Hno)].
    + rewrite (loop_ed _ _ B _ _ _ _ _ _ _ Hx). cbn zeta. destruct (hasPub (enc raw) kn) eqn:Hp.
      * rewrite cut_still; [exact P0|]. unfold finish. cbn [rGood]. destruct (rGood r ++ _); exact I.
      * destruct F as (i & Fp & Fn).
        set (kh := KK h ed25519 (enc raw) (mails (cMails x))).
        assert (C : cleanKK kh) by (apply (kh_clean enc dec B); [exact Hh | apply Hc; left; reflexivity]).
        destruct (addKnown_good kh kn G C) as (G' & L').
        destruct (fileText_listed (hosts (addKnown kh kn)) (proj1 G')) as (W1 & L1).
        assert (L2 : forall k, Listed (fileText (hosts (addKnown kh kn))) k <-> k = enc raw \/ Listed t k).
        { intros k. rewrite L1, <- (proj2 G' k), L', L. reflexivity. }
        eapply cut_writeOut; [exact Fp | exact Fn | exact HK |].
        intros m. eapply (IH (addKnown kh kn) _ _ (fileText (hosts (addKnown kh kn)))).
        { exact G'. }
        { exists (List.length (inodes s)). split; [reflexivity|]. apply nth_last. }
        { intros k. rewrite L', L, L2. reflexivity. }
        { intros k Hk. apply L2. auto. }
        { intros y Hy. apply Hc. right. exact Hy. }
    + destruct (Hno r true (Some h) (Some kn) cs true) as (e & E). rewrite E. rewrite cut_still; [exact P0 | exact I].
Qed.
End Cut.

Lemma cut_all : forall c s t, fileIs s true t -> plainHost c -> plainMails c ->
  forall n, exists u, ((exists w, fileIs (runCut n (verify enc dec c) s) w u) \/ oldIs (runCut n (verify enc dec c) s) u) /\
    forall k, Listed t k -> Listed u k.
Proof.
  intros c s t F PH PM n.
  assert (KK : kept (Listed t) (runCut n (verify enc dec c) s)).
  { assert (P0 : kept (Listed t) s) by (destruct F as (i & Fp & Fn); exists i, (IN t true); auto).
    assert (F' := F). destruct F' as (i & Hp & Hn).
    unfold verify.
    destruct n as [|n]; [exact P0|]. cbn [runCut exec]. rewrite Hp.
    destruct n as [|n]; [exact P0|]. cbn [runCut exec]. rewrite Hp.
    destruct n as [|n]; [exact P0|]. cbn [runCut exec]. rewrite Hp, (nth_getI _ _ _ Hn). cbn [iWritable].
    destruct n as [|n]; [exact P0|]. cbn [runCut exec]. rewrite Hp.
    destruct n as [|n]; [exact P0|]. cbn [runCut exec]. rewrite Hp, (nth_getI _ _ _ Hn). cbn [iText].
    destruct (parse t) as [kn|] eqn:E; [|rewrite cut_still; [exact P0 | exact I]].
    destruct (parse_some _ _ E) as (G & _ & L). unfold certs.
    destruct (cCerts c) as [|x cs] eqn:Ec; [rewrite cut_still; [exact P0 | exact I]|].
    destruct (cHost c) as [h|] eqn:Eh.
    - eapply loop_cut; [exact (PH h Eh) | exact G | exact F | exact L | auto |].
      intros y Hy m Hm. apply (PM y m); [rewrite Ec; exact Hy | exact Hm].
    - rewrite cut_still; [exact P0|]. cbn [certLoop]. destruct (cKey x) as [[|a raw]|]; try exact I. cbn [negb].
      destruct (dec _); [|exact I]. destruct (negb _); exact I. }
  destruct KK as (j & [u w] & [Hj | Hj] & Hn & HL); exists u.
  - split; [left; exists w, j; auto | exact HL].
  - split; [right; exists j, w; auto | exact HL].
Qed.

(** ** One after the other *)

Lemma runs_tofu : forall cs s t, fileIs s true t -> WellFormed t ->
  (forall c, In c cs -> proper c /\ plainHost c /\ plainMails c /\ exists raw, only c raw) ->
  exists t', fileIs (fst (runs enc dec cs s)) true t' /\ WellFormed t' /\
    (forall k, Listed t' k <-> Listed t k \/ exists c raw, In c cs /\ only c raw /\ k = enc raw) /\
    (forall a, In a (snd (runs enc dec cs s)) -> exists r, a = Some r /\ accepted r = true).
Proof.
  induction cs as [|c cs IH]; intros s t F W H; cbn [runs].
  - exists t. split; [exact F|]. split; [exact W|]. split; [|intros a []].
    intros k. split; [auto|]. intros [K | (c & raw & [] & _)]; exact K.
  - destruct (H c (or_introl eq_refl)) as (Pc & PH & PM & raw & x & Ex & Hx).
    destruct (run_tofu enc dec B c s t F W Pc PH PM) as (s' & r & t1 & E & F1 & W1 & K1 & K2 & K3 & K4).
    rewrite E. destruct (IH s' t1 F1 W1) as (t' & F' & W' & L' & A).
    { intros c' Hc. apply H. right. exact Hc. }
    destruct (runs enc dec cs s') as (s2, l). cbn [fst snd] in *.
    exists t'. split; [exact F'|]. split; [exact W'|]. split.
    + intros k. rewrite L'. split.
      * intros [Hk | (c' & rw & Hc & Ho & Ek)]; [|right; exists c', rw; split; [right; exact Hc | auto]].
        apply K2 in Hk as [Hk | (y & rw & Hy & Hy2 & Ek)]; [auto|]. right. exists c, rw. split; [left; reflexivity|].
        rewrite Ex in Hy. destruct Hy as [<- | []]. split; [exists x; auto | exact Ek].
      * intros [Hk | (c' & rw & [<- | Hc] & Ho & Ek)]; [left; apply K1; exact Hk | |].
        -- left. subst k. destruct Ho as (y & Ey & Hy). eapply K4; [exact Ey | exact Hy].
        -- right. exists c', rw. auto.
    + intros a [<- | Ha]; [|auto]. exists r. split; [reflexivity|]. apply K3. intros y Hy. rewrite Ex in Hy.
      destruct Hy as [<- | []]. exists raw. exact Hx.
Qed.

Lemma chmod_file : forall s w w' t, fileIs s w t -> fileIs (chmod w' s) w' t.
Proof.
  intros s w w' t (i & Hp & Hn). unfold chmod. rewrite Hp. exists i. split; [reflexivity|]. cbn [inodes].
  rewrite (nth_getI _ _ _ Hn). eapply nth_setNth. exact Hn.
Qed.

Lemma offers_only : forall P c raw, only c raw -> (offers enc P (cCerts c) <-> P (enc raw)).
Proof.
  intros P c raw (x & E & Hx). rewrite E. change (offers enc P [x]) with (admits enc P [x]).
  rewrite (admits_cons enc P x raw [] Hx). split; [|auto].
  intros [H | (pre & y & post & rw & K & _)]; [exact H|]. destruct pre; discriminate.
Qed.

(** ** The servers with a file that must not be written *)

Lemma tls_lock : forall cs s t, fileIs s false t -> WellFormed t -> (forall c, In c cs -> proper c) ->
  forall i c, nth_error cs i = Some c ->
    (nth_error (tlsServe enc dec cs s) i = Some Served <-> offers enc (Listed t) (cCerts c)) /\
    (nth_error (tlsServe enc dec cs s) i = Some Refused <-> ~ offers enc (Listed t) (cCerts c)).
Proof.
  induction cs as [|c0 cs IH]; intros s t F W H [|i] c E; try discriminate; cbn [tlsServe];
    destruct (run_lock enc dec B c0 s t F W (H c0 (or_introl eq_refl))) as (r & -> & A); cbn [nth_error] in *.
  - injection E as ->. unfold admits in A. destruct (accepted r); split; split; intros K; try discriminate; try reflexivity.
    + apply A. reflexivity.
    + exfalso. apply K, A. reflexivity.
    + apply A in K. discriminate.
    + intros Q. apply A in Q. discriminate.
  - eapply IH; [exact F | exact W | intros c' Hc; apply H; right; exact Hc | exact E].
Qed.

Lemma quic_lock : forall cs s t, fileIs s false t -> WellFormed t -> (forall c, In c cs -> proper c) ->
  forall i c, nth_error cs i = Some c ->
    (forall j d, j < i -> nth_error cs j = Some d -> offers enc (Listed t) (cCerts d)) ->
    (nth_error (quicServe enc dec cs s) i = Some Served <-> offers enc (Listed t) (cCerts c)) /\
    (nth_error (quicServe enc dec cs s) i = Some Refused <-> ~ offers enc (Listed t) (cCerts c)).
Proof.
  induction cs as [|c0 cs IH]; intros s t F W H [|i] c E HB; try discriminate; cbn [quicServe];
    destruct (run_lock enc dec B c0 s t F W (H c0 (or_introl eq_refl))) as (r & -> & A); unfold admits in A.
  - cbn [nth_error] in E. injection E as ->. destruct (accepted r); cbn [nth_error]; split; split; intros K; try discriminate; try reflexivity.
    + apply A. reflexivity.
    + exfalso. apply K, A. reflexivity.
    + apply A in K. discriminate.
    + intros Q. apply A in Q. discriminate.
  - rewrite (proj2 A (HB 0 c0 (Nat.lt_0_succ i) eq_refl)). cbn [nth_error] in *.
    eapply IH; [exact F | exact W | intros c' Hc; apply H; right; exact Hc | exact E |].
    intros j d Hj Hd. apply (HB (S j) d); [lia | exact Hd].
Qed.
End Conc.
