(** Properties of the saved Raft state: C54. *)
From Coq Require Import List ZArith Lia Bool.
From Verif Require Import Base Wal_Model Wal_Spec Wal_Proofs Persist_Model Persist_Spec.
Import ListNotations.
Open Scope Z_scope.

Section P.
Context {St : Type} (c : scodec St) (ok : scodec_ok c).

Definition image (st : St) : bytes := frame (encR c st) ++ frame (encH c (hash c (encR c st))).
Definition img (r : option St) : bytes := match r with None => [] | Some st => image st end.

Lemma load_frames : forall b h, fits b -> fits h ->
  load c (frame b ++ frame h) = match decR c b, decH c h with
    | Some st, Some sum => if beqb (hash c b) sum then Ok (Some st) else Panic
    | _, _ => Panic end.
Proof.
  intros b h Hb Hh. unfold load. pose proof (frame_len5 b) as H5. unfold fits in Hb.
  destruct (frame b ++ frame h) as [|z f] eqn:Ef.
  { apply (f_equal (@length Z)) in Ef. rewrite app_length in Ef. cbn in Ef. lia. }
  rewrite <- Ef. pose proof (nextframe_frame [] b (frame h) Hb) as N1. cbn [app length] in N1. rewrite N1.
  destruct (decR c b); [|reflexivity].
  pose proof (nextframe_frame (frame b) h [] Hh) as N2. rewrite app_nil_r in N2.
  cbn [Nat.add]. rewrite N2. destruct (decH c h); reflexivity.
Qed.
Lemma load_img : forall r, (forall st, r = Some st -> fits (encR c st)) -> load c (img r) = Ok r.
Proof.
  intros [st|] H; [|reflexivity]. cbn [img]. unfold image. rewrite load_frames; [|apply H; reflexivity|apply ok_fitH, ok].
  rewrite (ok_R c ok), (ok_H c ok). destruct (beqb _ _) eqn:E; [reflexivity|]. exfalso.
  assert (beqb (hash c (encR c st)) (hash c (encR c st)) = true) by (apply beqb_eq; reflexivity). congruence.
Qed.

(** every file the state file may turn out to be holds one of the states *)
Definition inv (cs : list (option St)) (F : fs) : Prop :=
  forall b s, In (b, s) ((main F, mainSync F) :: olds F) ->
    s = true /\ exists r, In r cs /\ b = img r /\ (forall st, r = Some st -> fits (encR c st)).

Lemma inv_weaken : forall cs cs' F, inv cs F -> (forall r, In r cs -> In r cs') -> inv cs' F.
Proof. intros cs cs' F I H b s Hb. destruct (I b s Hb) as (-> & r & A & B & C). split; [reflexivity|]. exists r. auto. Qed.
Lemma inv_same : forall cs F F', inv cs F -> main F' = main F -> mainSync F' = mainSync F -> olds F' = olds F -> inv cs F'.
Proof. intros cs F F' I A B C b s Hb. rewrite A, B, C in Hb. exact (I b s Hb). Qed.
Lemma inv_save : forall cs F st, inv cs F -> fits (encR c st) ->
  inv [Some st] (runAll (save c st) F) /\ forall F', died (save c st) F F' -> inv (Some st :: cs) F'.
Proof.
  intros cs F st I Hf. unfold save. cbn [runAll fold_left run main mainSync olds tmp tmpSync app]. split.
  - intros b s [H|[]]. injection H as <- <-. split; [reflexivity|]. exists (Some st). split; [left; reflexivity|]. split; [reflexivity|].
    intros st' E. injection E as <-. exact Hf.
  - intros F' H. apply (inv_weaken _ (Some st :: cs)) in I; [|right; assumption].
    assert (New : forall b s, b = image st -> s = true -> s = true /\ exists r, In r (Some st :: cs) /\ b = img r /\ (forall st', r = Some st' -> fits (encR c st'))).
    { intros b s -> ->. split; [reflexivity|]. exists (Some st). split; [left; reflexivity|]. split; [reflexivity|]. intros st' E. injection E as <-. exact Hf. }
    Ltac dstep := match goal with X : died _ _ _ |- _ => inversion X; subst; clear X end.
    dstep; [exact I|]. dstep; [eapply inv_same; [exact I|reflexivity..]| |eapply inv_same; [exact I|reflexivity..]].
    dstep; [eapply inv_same; [exact I|reflexivity..]| |eapply inv_same; [exact I|reflexivity..]].
    dstep; [eapply inv_same; [exact I|reflexivity..]|]. dstep; [eapply inv_same; [exact I|reflexivity..]|].
    dstep.
    { intros b s Hb. cbn in Hb. destruct Hb as [Hb|Hb]; [injection Hb as <- <-; apply New; reflexivity|exact (I b s Hb)]. }
    dstep. intros b s Hb. cbn in Hb. destruct Hb as [Hb|[]]. injection Hb as <- <-. apply New; reflexivity.
Qed.
Lemma inv_lost : forall cs F f, inv cs F -> lost F f -> inv cs (settled f).
Proof.
  intros cs F f I (b & s & Hb & Hs). destruct (I b s Hb) as (-> & r & A & B & C). rewrite (Hs eq_refl).
  intros b' s' [H|[]]. injection H as <- <-. split; [reflexivity|]. exists r. auto.
Qed.
Lemma history_inv : forall cs F, history c cs F -> inv cs F.
Proof.
  intros cs F H. induction H as [|cs F st H I Hf|cs F st F' H I Hf Hd|cs F st F' f H I Hf Hd Hl|cs F f H I Hl].
  - intros b s [E|[]]. injection E as <- <-. split; [reflexivity|]. exists None. split; [left; reflexivity|]. split; [reflexivity|]. discriminate.
  - apply (inv_save _ _ _ I Hf).
  - apply (inv_save _ _ _ I Hf); exact Hd.
  - eapply inv_lost; [apply (inv_save _ _ _ I Hf); exact Hd|exact Hl].
  - eapply inv_lost; eassumption.
Qed.
End P.

Definition toyS : scodec bytes := {|
  encR := fun s => [0; 0; 0] ++ s; decR := fun b => Some (skipn 3 b);
  encH := fun h => [0; 0; 0] ++ h; decH := fun b => Some (skipn 3 b);
  hash := fun b => [fold_left (fun a x => a * 257 + x + 1) b 0] |}.
Example toyS_ok : scodec_ok toyS.
Proof. constructor; [reflexivity|reflexivity|]. intros b. unfold fits. cbn. lia. Qed.

(** After any history of saves, with the process or the machine dying at any point of
    them or between them, loading succeeds and gives the state of the last completed save
    or of one interrupted since. *)
Theorem C54_load : forall St (c : scodec St) cs F, scodec_ok c -> history c cs F ->
  exists r, load c (main F) = Ok r /\ In r cs.
Proof.
  intros St c cs F ok H. destruct (history_inv c cs F H _ _ (or_introl eq_refl)) as (_ & r & A & -> & C).
  exists r. split; [apply load_img; assumption|exact A].
Qed.
Print Assumptions C54_load.
(** One save completed, a second interrupted by a power loss after its rename, a third
    interrupted inside its first write. *)
Example C54_load_ex : let F1 := runAll (save toyS [1]) (settled []) in
  let F2 := runAll (firstn 5 (save toyS [2])) F1 in
  let F3 := runAll [Create; TWrite [196]] (settled (main F1)) in
  died (save toyS [2]) F1 F2 /\ lost F2 (main F1) /\ history toyS [Some [3]; Some [2]; Some [1]] F3 /\ load toyS (main F3) = Ok (Some [1]).
Proof.
  intros F1 F2 F3.
  assert (D2 : died (save toyS [2]) F1 F2) by (do 5 apply died_later; apply died_now).
  assert (L2 : lost F2 (main F1)) by (exists (main F1), true; split; [right; left; reflexivity|reflexivity]).
  split; [exact D2|]. split; [exact L2|]. split; [|vm_compute; reflexivity].
  eapply h_kill; [eapply h_power; [eapply h_save with (st := [1]); [apply h_new|unfold fits; cbn; lia]|unfold fits; cbn; lia|exact D2|exact L2]|unfold fits; cbn; lia|].
  apply died_later. exact (died_write (frame [0; 0; 0; 3]) 1 _ _).
Qed.

(** A completed save is what any later load gives, power lost or not. *)
Theorem C54_durable : forall St (c : scodec St) cs F st, scodec_ok c -> history c cs F -> fits (encR c st) ->
  load c (main (runAll (save c st) F)) = Ok (Some st) /\
  forall f, lost (runAll (save c st) F) f -> load c f = Ok (Some st).
Proof.
  intros St c cs F st ok H Hf. pose proof (h_save c cs F st H Hf) as H1. split.
  - destruct (C54_load _ _ _ _ ok H1) as (r & A & [<-|[]]). exact A.
  - intros f L. destruct (C54_load _ _ _ _ ok (h_power_idle c _ _ _ H1 L)) as (r & A & [<-|[]]). exact A.
Qed.
Print Assumptions C54_durable.
Example C54_durable_ex : load toyS (main (runAll (save toyS [4; 5]) (runAll (save toyS [1]) (settled [])))) = Ok (Some [4; 5]).
Proof. vm_compute. reflexivity. Qed.

(** A power loss during a save leaves the state before it or the new one, and from then on
    every load gives the same until the next save. *)
Theorem C54_atomic_partial : forall St (c : scodec St) old cs F0 F' st f, scodec_ok c -> history c cs F0 -> fits (encR c old) -> fits (encR c st) ->
  died (save c st) (runAll (save c old) F0) F' -> lost F' f ->
  (load c f = Ok (Some old) \/ load c f = Ok (Some st)) /\
  forall f2, lost (settled f) f2 -> load c f2 = load c f.
Proof.
  intros St c old cs F0 F' st f ok H Ho Hf D L. split.
  - pose proof (h_power c _ _ _ _ _ (h_save c _ _ _ H Ho) Hf D L) as H1.
    destruct (C54_load _ _ _ _ ok H1) as (r & A & [<-|[<-|[]]]); [right|left]; exact A.
  - intros f2 (b & s & [E|[]] & Hs). injection E as <- <-. rewrite (Hs eq_refl). reflexivity.
Qed.
Print Assumptions C54_atomic_partial.
Example C54_atomic_ex : let F1 := runAll (save toyS [1]) (settled []) in
  let F2 := runAll (firstn 5 (save toyS [2])) F1 in
  lost F2 (main F1) /\ lost F2 (main F2) /\ load toyS (main F1) = Ok (Some [1]) /\ load toyS (main F2) = Ok (Some [2]).
Proof.
  intros F1 F2. split; [exists (main F1), true; split; [right; left; reflexivity|reflexivity]|].
  split; [exists (main F2), true; split; [left; reflexivity|reflexivity]|]. split; vm_compute; reflexivity.
Qed.

(** [_partial]: when the process dies between the rename and the sync of the directory,
    the next process loads the new state, and a later power loss brings the old one back:
    opening does not sync the directory. *)
Theorem C54_atomic_refuted : exists (c : scodec bytes) old st F' f, scodec_ok c /\ fits (encR c old) /\ fits (encR c st) /\
  died (save c st) (runAll (save c old) (settled [])) F' /\ load c (main F') = Ok (Some st) /\
  lost F' f /\ load c f = Ok (Some old) /\ old <> st.
Proof.
  exists toyS, [1], [2], (runAll (firstn 5 (save toyS [2])) (runAll (save toyS [1]) (settled []))), (main (runAll (save toyS [1]) (settled []))).
  split; [exact toyS_ok|]. split; [unfold fits; cbn; lia|]. split; [unfold fits; cbn; lia|].
  split; [do 5 apply died_later; apply died_now|]. split; [vm_compute; reflexivity|].
  split; [exists (main (runAll (save toyS [1]) (settled []))), true; split; [right; left; reflexivity|reflexivity]|].
  split; [vm_compute; reflexivity|discriminate].
Qed.
Print Assumptions C54_atomic_refuted.

(** Changed bytes of the state inside the file: loading fails, unless the changed bytes
    have the same hash. *)
Theorem C54_damage : forall St (c : scodec St) st b' r, scodec_ok c -> fits (encR c st) -> length b' = length (encR c st) ->
  load c (frame b' ++ frame (encH c (hash c (encR c st)))) = Ok r -> hash c b' = hash c (encR c st) /\ r = decR c b'.
Proof.
  intros St c st b' r ok Hf Hl H. rewrite load_frames in H; [|unfold fits in *; rewrite Hl; exact Hf|apply ok_fitH, ok].
  rewrite (ok_H c ok) in H. destruct (decR c b') as [st'|]; [|discriminate]. destruct (beqb _ _) eqn:E; [|discriminate].
  apply beqb_eq in E. injection H as <-. auto.
Qed.
Print Assumptions C54_damage.
Example C54_damage_ex : load toyS (frame [0; 0; 0; 2] ++ frame (encH toyS (hash toyS (encR toyS [1])))) = Panic.
Proof. vm_compute. reflexivity. Qed.

(** Whatever the file holds: a state that loads stood in it together with its own hash,
    and "no state" is said of the empty file only. *)
Theorem C54_checked : forall St (c : scodec St) f st, load c f = Ok (Some st) ->
  exists b h, piece b f /\ piece h f /\ decR c b = Some st /\ decH c h = Some (hash c b).
Proof.
  intros St c f st H. unfold load in H. destruct f as [|z f]; [discriminate|].
  destruct (nextframe (z :: f) 0) as [| |b raw pos] eqn:E1; try discriminate.
  destruct (decR c b) as [st'|] eqn:E2; [|discriminate].
  destruct (nextframe (z :: f) pos) as [| |h raw2 pos2] eqn:E3; try discriminate.
  destruct (decH c h) as [sum|] eqn:E4; [|discriminate]. destruct (beqb (hash c b) sum) eqn:E5; [|discriminate].
  injection H as <-. apply beqb_eq in E5. subst sum. exists b, h.
  split; [apply (nextframe_piece _ _ _ _ _ E1)|]. split; [apply (nextframe_piece _ _ _ _ _ E3)|]. auto.
Qed.
Print Assumptions C54_checked.

Theorem C54_no_state : forall St (c : scodec St) f, load c f = Ok None -> f = [].
Proof.
  intros St c f H. unfold load in H. destruct f as [|z f]; [reflexivity|].
  destruct (nextframe (z :: f) 0); try discriminate. destruct (decR c content); try discriminate.
  destruct (nextframe (z :: f) pos); try discriminate. destruct (decH c content0); try discriminate.
  destruct (beqb _ _); discriminate.
Qed.
Print Assumptions C54_no_state.

(** A saved file that lost some of its end: loading fails. *)
Theorem C54_torn : forall St (c : scodec St) st n, scodec_ok c -> fits (encR c st) ->
  let f := main (runAll (save c st) (settled [])) in
  (0 < n < length f)%nat -> load c (firstn n f) = Panic.
Proof.
  intros St c st n ok Hf f Hn.
  assert (f = image c st) as E by reflexivity. rewrite E in *. clear E f. unfold image in *.
  set (b := encR c st) in *. set (h := encH c (hash c b)) in *.
  assert (fits h) as Hh by (apply ok_fitH, ok).
  assert (firstn n (frame b ++ frame h) <> []) as NE.
  { intros X. apply (f_equal (@length Z)) in X. rewrite firstn_length in X. cbn in X. lia. }
  unfold load. destruct (firstn n (frame b ++ frame h)) as [|z r] eqn:EF; [congruence|]. rewrite <- EF. clear z r EF NE.
  destruct (Nat.lt_ge_cases n (length (frame b))) as [L|L].
  - rewrite firstn_app. replace (n - length (frame b))%nat with 0%nat by lia. cbn [firstn]. rewrite app_nil_r.
    pose proof (nextframe_torn [] b n Hf) as T. cbn [app length] in T. rewrite T by lia. reflexivity.
  - rewrite firstn_app, firstn_all2 by lia.
    pose proof (nextframe_frame [] b (firstn (n - length (frame b)) (frame h)) Hf) as N1. cbn [app length] in N1. rewrite N1.
    destruct (decR c b); [|reflexivity]. cbn [Nat.add]. rewrite app_length in Hn.
    destruct (Nat.eq_dec n (length (frame b))) as [->|NE].
    + rewrite Nat.sub_diag. cbn [firstn]. rewrite app_nil_r, nextframe_eof. reflexivity.
    + pose proof (nextframe_torn (frame b) h (n - length (frame b)) Hh) as T. rewrite T by lia. reflexivity.
Qed.
Print Assumptions C54_torn.
Example C54_torn_ex : let f := main (runAll (save toyS [4; 5]) (settled [])) in
  length f = 13%nat /\ forallb (fun n => match load toyS (firstn n f) with Panic => true | Ok _ => false end) (seq 1 12) = true.
Proof. vm_compute. auto. Qed.
