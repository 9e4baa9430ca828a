(** Properties C79-C82: the content-addressed store of /repo/jsync/cas.go. *)
From Coq Require Import List ZArith Bool Lia Arith.
From Verif Require Import Cas_Model Cas_Spec Cas_Proofs Cas_Files Cas_Calm Cas_More Cas_Bound.
Import ListNotations.
Open Scope Z_scope.

(** *** A small hash and compressor for the examples. *)
Definition H0 (d : bytes) : key := firstn 55 (Z.of_nat (length d) :: d ++ repeat 0 55).
Definition enc0 (d : bytes) : bytes := 7 :: d.
Definition dec0 (b : bytes) : option bytes := match b with _ :: d => Some d | [] => None end.
Definition Ok0 (d : bytes) : Prop := (length d <= 50)%nat.
Definition W0 : nat := 256.
Definition bA : bytes := [1; 2; 3].
Definition bB : bytes := [4; 5; 6].
Definition pk : nat -> nat := fun _ => O.
Notation stp0 := (step H0 enc0 dec0 W0).
Notation run0 := (run H0 enc0 dec0 W0 blank).

Lemma laws0 : laws H0 enc0 dec0 W0 Ok0.
Proof.
  constructor.
  - intro d. unfold H0. rewrite firstn_length. cbn [length]. rewrite app_length, repeat_length. lia.
  - reflexivity.
  - intros a b A B E. unfold Ok0 in *. unfold H0 in E. cbn [firstn] in E. injection E as E1 E2.
    apply Nat2Z.inj in E1.
    change (firstn 54 (a ++ repeat 0 55) = firstn 54 (b ++ repeat 0 55)) in E2.
    apply (f_equal (firstn (length a))) in E2. rewrite !firstn_firstn in E2.
    rewrite !Nat.min_l in E2 by lia. rewrite firstn_app_exact in E2 by reflexivity.
    rewrite E1, firstn_app_exact in E2 by reflexivity. exact E2.
  - intros d A. unfold Ok0, enc0 in *. cbn [length]. lia.
  - intros d A. unfold Ok0 in *. lia.
  - unfold W0. lia.
Qed.

(** ** C79: a Get returns what was stored under the hash. *)

(** In every execution of one store, with any number of processes one after
    the other, killed anywhere, with any Appends and concurrent Gets and any
    choices of what to evict, in which the files were in step whenever the
    store was opened (but perhaps the last time): what a Get returns has the
    hash asked for and was given to an Append before.  The last theorems of
    this section say what happens otherwise. *)
Theorem C79_right_partial : forall H enc dec W Okb es,
  laws H enc dec W Okb -> okrun (step H enc dec W) Okb blank es ->
  right H (wLog (run H enc dec W blank es)).
Proof.
  intros H enc dec W Okb es L OK.
  destruct (run_J _ _ _ _ _ L es blank (J_blank _ _ _) (Str_blank _ _) OK) as ((R & _) & _). exact R.
Qed.
Print Assumptions C79_right_partial.

(** Under the same conditions, a Get never misses a blob of an Append that
    returned, be it in this process or in an earlier one. *)
Theorem C79_found_partial : forall H enc dec W Okb es,
  laws H enc dec W Okb -> okrun (step H enc dec W) Okb blank es ->
  found H (wLog (run H enc dec W blank es)).
Proof.
  intros H enc dec W Okb es L OK.
  destruct (run_J _ _ _ _ _ L es blank (J_blank _ _ _) (Str_blank _ _) OK) as ((_ & F & _) & _). exact F.
Qed.
Print Assumptions C79_found_partial.

(** The execution for the example: two blobs and a cache of one; a Get that
    reads the file while another is answered from memory; then the process is
    killed in the middle of a third Append's record, and another opens the
    store and finds the first two blobs, and not the third. *)
Definition es1 : list ev :=
  [EOpen 1 false pk; EApp [bA; bB]; EStep 0; EStep 0; EStep 0;
   EGet 0 (H0 bA); EGet 1 (H0 bB); EDisk 0 0;
   EApp [[9]]; EKill 0 0 20;
   EOpen 1 false pk; EGet 2 (H0 bB); EDisk 2 0; EGet 3 (H0 [9])].

Example C79_ex : okrun stp0 Ok0 blank es1 /\
  wLog (run0 es1) =
    [OOpen; OApp [bA; bB]; ODone [bA; bB] 2; OAsk 0 (H0 bA);
     OAsk 1 (H0 bB); OGot 1 (H0 bB) (Some bB); OGot 0 (H0 bA) (Some bA);
     OApp [[9]]; OKill; OOpen; OAsk 2 (H0 bB); OGot 2 (H0 bB) (Some bB);
     OAsk 3 (H0 [9]); OGot 3 (H0 [9]) None].
Proof.
  split; [|vm_compute; reflexivity].
  unfold es1. cbn [okrun].
  repeat match goal with
  | |- _ /\ _ => split
  | |- True => exact I
  | |- false = false => reflexivity
  | |- Forall Ok0 _ => repeat constructor; unfold Ok0; cbn; lia
  end.
  - intros _. left. split; vm_compute; reflexivity.
  - intros _. right. repeat constructor; intro X; exact X.
Qed.

(** The counts that Appends return add up to the number of different blobs
    they were given, and the index file has one entry for each (in a process
    that has not panicked, while no Append is under way). *)
Theorem C79_count : forall H enc dec W Okb max picks es,
  laws H enc dec W Okb ->
  Forall (fun e => ~ isOpen e /\ (forall p j m, e <> EKill p j m) /\ forall b, e = EApp b -> Forall Okb b) es ->
  let w := run H enc dec W blank (EOpen max false picks :: es) in
  ~ In ODead (wLog w) ->
  (exists s, wUp w = Some s /\ cJob s = None) ->
  exists ds, NoDup ds /\ (forall d, In d ds <-> given (wLog w) d) /\
    counts (wLog w) = length ds /\ length (wIndex w) = (64 * length ds)%nat.
Proof.
  intros H enc dec W Okb max picks es L F w ND (s & U & CJ).
  assert (ST : inStep blank) by (split; reflexivity).
  pose proof (J_blank H enc Okb) as JB. pose proof (Str_blank H enc) as SB.
  assert (J1 : J H enc Okb (step H enc dec W blank (EOpen max false picks))).
  { apply (open_J _ _ _ _ _ L max picks [] [] []); [exact (proj1 JB)|exact SB]. }
  assert (S1 : Str H enc (step H enc dec W blank (EOpen max false picks))).
  { apply (open_Str _ _ _ _ _ L max picks [] [] []); [exact (proj1 JB)|exact SB|exact ST]. }
  assert (K1 : KI (step H enc dec W blank (EOpen max false picks))).
  { right. eexists. split; [reflexivity|]. split; [reflexivity|]. intros d (b & [E|[]] & _). discriminate. }
  subst w. cbn [run] in *.
  destruct (JSK_run _ _ _ _ _ L es _ J1 S1 K1 F) as (J2 & S2 & K2).
  set (w := run _ _ _ _ _ es) in *. destruct w as [data index up log]. cbn [wUp wLog wIndex] in *. subst up.
  destruct S2 as (rs1 & rs2 & D & X & B & C & NDr & K & G & Z).
  cbn [wUp wLog wIndex] in *. rewrite (Z CJ) in *. rewrite app_nil_r in *.
  destruct K2 as [K2|(s' & E & CN & GK)]; [contradiction|]. cbn [wUp wLog] in *. injection E as <-.
  rewrite CJ in CN, GK. exists rs1. split; [exact NDr|]. split.
  - intro d. split; [apply G|]. intro Gd. destruct (GK d Gd) as [Kd|[]]. auto.
  - assert (LL : length (cIdx s) = length rs1).
    { rewrite C. clear. generalize 0. induction rs1 as [|d r IH]; intro z; [reflexivity|]. cbn. rewrite IH. reflexivity. }
    split; [lia|]. rewrite X. apply (hdrs_length _ _ _ _ _ L).
Qed.
Print Assumptions C79_count.

Example C79_count_ex :
  let w := run0 [EOpen 4 false pk; EApp [bA; bB; bA]; EStep 0; EStep 0; EStep 0; EStep 0; EApp [bB]; EStep 0; EStep 0] in
  wLog w = [OOpen; OApp [bA; bB; bA]; ODone [bA; bB; bA] 2; OApp [bB]; ODone [bB] 0] /\
  counts (wLog w) = 2%nat /\ length (wIndex w) = 128%nat.
Proof. vm_compute. auto. Qed.

(** The files need not be in step.  A process is killed after it wrote a record
    and before it wrote the entry; the next process stores another blob of the
    same size and closes the store; the third gets the first blob when it asks
    for the second.  The header that differs is noticed and ignored. *)
Theorem C79_orphan_refuted : exists H enc dec W Okb es g k d,
  laws H enc dec W Okb /\
  Forall (fun e => match e with EApp b => Forall Okb b | EOpen _ vf _ => vf = false | _ => True end) es /\
  In (OGot g k (Some d)) (wLog (run H enc dec W blank es)) /\ H d <> k /\
  exists d', kept (wLog (run H enc dec W blank es)) d' /\ H d' = k.
Proof.
  exists H0, enc0, dec0, W0, Ok0,
    [EOpen 4 false pk; EApp [bA]; EStep 0; EKill 0 0 0;
     EOpen 4 false pk; EApp [bB]; EStep 0; EStep 0; EKill 0 0 0;
     EOpen 4 false pk; EGet 0 (H0 bB); EDisk 0 0], O, (H0 bB), bA.
  split; [exact laws0|]. split; [repeat constructor; unfold Ok0; cbn; lia|].
  split; [vm_compute; intuition|]. split; [vm_compute; discriminate|].
  exists bB. split; [|reflexivity]. exists [bB], 1%nat. split; [vm_compute; intuition|left; reflexivity].
Qed.
Print Assumptions C79_orphan_refuted.

(** With VerifyData, the cache is filled with the compressed bytes, and that is
    what Get returns: its hash is not the one asked for. *)
Theorem C79_verify_refuted : exists H enc dec W Okb es g k d,
  laws H enc dec W Okb /\
  Forall (fun e => match e with EApp b => Forall Okb b | EKill _ j m => j = O /\ m = O | _ => True end) es /\
  In (OGot g k (Some (enc d))) (wLog (run H enc dec W blank es)) /\
  H d = k /\ kept (wLog (run H enc dec W blank es)) d /\ H (enc d) <> k.
Proof.
  exists H0, enc0, dec0, W0, Ok0,
    [EOpen 4 true pk; EApp [bA; bB]; EStep 0; EStep 0; EStep 0; EKill 0 0 0;
     EOpen 4 true pk; EGet 0 (H0 bB)], O, (H0 bB), bB.
  split; [exact laws0|].
  split; [repeat constructor; unfold Ok0; cbn; lia|].
  split; [vm_compute; intuition|]. split; [reflexivity|]. split; [|vm_compute; discriminate].
  exists [bA; bB], 2%nat. split; [vm_compute; intuition|right; left; reflexivity].
Qed.
Print Assumptions C79_verify_refuted.

(** ** C80: what an Append that returned has stored outlives the process. *)

(** Whatever the process did and wherever it was killed: if the index file has
    whole entries, the next process opens the store, and a Get of any blob of an
    Append that had returned returns it. *)
Theorem C80_survives_partial : forall H enc dec W Okb es max picks g p d,
  laws H enc dec W Okb ->
  okrun (step H enc dec W) Okb blank (es ++ [EOpen max false picks]) ->
  wUp (run H enc dec W blank es) = None ->
  (length (wIndex (run H enc dec W blank es)) mod 64 = 0)%nat ->
  kept (wLog (run H enc dec W blank es)) d -> given (wLog (run H enc dec W blank es)) d -> fits enc W d ->
  exists l, wLog (run H enc dec W blank (es ++ [EOpen max false picks; EGet g (H d); EDisk g p]))
            = l ++ [OGot g (H d) (Some d)].
Proof. intros. eapply survives; eauto. Qed.
Print Assumptions C80_survives_partial.

(** Killed inside a record, after one Append returned. *)
Definition es2 : list ev :=
  [EOpen 4 false pk; EApp [bA]; EStep 0; EStep 0; EApp [bB]; EKill 0 1 3].

Example C80_survives_ex :
  okrun stp0 Ok0 blank (es2 ++ [EOpen 4 false pk]) /\
  wUp (run0 es2) = None /\ length (wData (run0 es2)) = 135%nat /\ length (wIndex (run0 es2)) = 64%nat /\
  kept (wLog (run0 es2)) bA /\ given (wLog (run0 es2)) bA /\ fits enc0 W0 bA /\
  wLog (run0 (es2 ++ [EOpen 4 false pk; EGet 0 (H0 bA); EDisk 0 0]))
    = [OOpen; OApp [bA]; ODone [bA] 1; OApp [bB]; OKill; OOpen; OAsk 0 (H0 bA); OGot 0 (H0 bA) (Some bA)].
Proof.
  split.
  - unfold es2. cbn [okrun app].
    repeat match goal with
    | |- _ /\ _ => split
    | |- True => exact I
    | |- false = false => reflexivity
    | |- Forall Ok0 _ => repeat constructor; unfold Ok0; cbn; lia
    end.
    + intros _. left. split; vm_compute; reflexivity.
    + intros _. right. constructor.
  - split; [vm_compute; reflexivity|]. split; [vm_compute; reflexivity|]. split; [vm_compute; reflexivity|].
    split; [exists [bA], 1%nat; split; [vm_compute; intuition|left; reflexivity]|].
    split; [exists [bA]; split; [vm_compute; intuition|left; reflexivity]|].
    split; [|vm_compute; reflexivity]. unfold fits, W0. cbn. split; [discriminate|]. split; [discriminate|lia].
Qed.

(** If the files are in step when the store is opened, VerifyData accepts them. *)
Theorem C80_verify_accepts : forall H enc dec W Okb es max picks,
  laws H enc dec W Okb ->
  okrun (step H enc dec W) Okb blank (es ++ [EOpen max false picks]) ->
  let w := run H enc dec W blank es in
  wUp w = None -> inStep w -> (forall d, given (wLog w) d -> enc d <> []) ->
  exists s, wUp (step H enc dec W w (EOpen max true picks)) = Some s /\
    wLog (step H enc dec W w (EOpen max true picks)) = wLog w ++ [OOpen].
Proof.
  intros H enc dec W Okb es max picks L OK w U ST EN.
  destruct (run_Str _ _ _ _ _ L es blank max picks (J_blank _ _ _) (Str_blank _ _) OK) as [JW SW].
  fold w in JW, SW. destruct w as [data index up log]. cbn [wUp wLog] in *. subst up.
  destruct (verify_open _ _ _ _ _ L max picks data index log (proj1 JW) SW ST EN) as (s & E).
  cbn [step wUp wData wIndex]. rewrite E. exists s. auto.
Qed.
Print Assumptions C80_verify_accepts.

Example C80_verify_accepts_ex :
  let es := [EOpen 1 false pk; EApp [bA; bB]; EStep 0; EStep 0; EStep 0; EKill 0 0 0] in
  okrun stp0 Ok0 blank (es ++ [EOpen 4 false pk]) /\ wUp (run0 es) = None /\ inStep (run0 es) /\
  wLog (stp0 (run0 es) (EOpen 4 true pk)) = [OOpen; OApp [bA; bB]; ODone [bA; bB] 2; OKill; OOpen].
Proof.
  intro es. split.
  - unfold es. cbn [okrun app].
    repeat match goal with
    | |- _ /\ _ => split
    | |- True => exact I
    | |- false = false => reflexivity
    | |- Forall Ok0 _ => repeat constructor; unfold Ok0; cbn; lia
    end.
    + intros _. left. split; vm_compute; reflexivity.
    + intros _. right. constructor.
  - split; [vm_compute; reflexivity|]. split; [split; vm_compute; reflexivity|]. vm_compute. reflexivity.
Qed.

(** Killed inside an entry of the index file, the store cannot be opened again,
    in either way, although an Append had returned. *)
Theorem C80_torn_refuted : exists H enc dec W Okb es,
  laws H enc dec W Okb /\ okrun (step H enc dec W) Okb blank es /\
  (exists d, kept (wLog (run H enc dec W blank es)) d) /\
  forall max vf picks, step H enc dec W (run H enc dec W blank es) (EOpen max vf picks)
    = World (wData (run H enc dec W blank es)) (wIndex (run H enc dec W blank es)) None
            (wLog (run H enc dec W blank es) ++ [ODead]).
Proof.
  exists H0, enc0, dec0, W0, Ok0,
    [EOpen 4 false pk; EApp [bA]; EStep 0; EStep 0; EApp [bB]; EStep 0; EKill 0 0 10].
  split; [exact laws0|]. split.
  - cbn [okrun].
    repeat match goal with
    | |- _ /\ _ => split
    | |- True => exact I
    | |- false = false => reflexivity
    | |- Forall Ok0 _ => repeat constructor; unfold Ok0; cbn; lia
    end.
    intros _. left. split; vm_compute; reflexivity.
  - split; [exists bA, [bA], 1%nat; split; [vm_compute; intuition|left; reflexivity]|].
    intros max vf picks. vm_compute. reflexivity.
Qed.
Print Assumptions C80_torn_refuted.

(** VerifyData need not notice that the files are out of step.  A process is
    killed inside the header of a record; the next opens the store with
    VerifyData, and its Append returns; after that the store can not be opened
    with VerifyData, and without it the Get of that blob returns other bytes. *)
Theorem C80_unnoticed_refuted : exists H enc dec W Okb es,
  laws H enc dec W Okb /\
  Forall (fun e => match e with EApp b => Forall Okb b | EOpen _ vf _ => vf = true | _ => True end) es /\
  ~ In ODead (wLog (run H enc dec W blank es)) /\
  exists d, kept (wLog (run H enc dec W blank es)) d /\
    (forall picks, wUp (step H enc dec W (run H enc dec W blank es) (EOpen 4 true picks)) = None) /\
    exists d', d' <> d /\
      In (OGot 0 (H d) (Some d')) (wLog (run H enc dec W blank (es ++ [EOpen 4 false pk; EGet 0 (H d); EDisk 0 0]))).
Proof.
  exists H0, enc0, dec0, W0, Ok0,
    [EOpen 4 true pk; EApp [[9]]; EStep 0; EStep 0; EApp [bA]; EKill 0 0 30;
     EOpen 4 true pk; EApp [bB]; EStep 0; EStep 0; EKill 0 0 0].
  split; [exact laws0|]. split; [repeat constructor; unfold Ok0; cbn; lia|].
  split; [vm_compute; intuition; discriminate|].
  exists bB. split; [exists [bB], 1%nat; split; [vm_compute; intuition|left; reflexivity]|].
  split; [intro picks; vm_compute; reflexivity|].
  eexists. split.
  2:{ vm_compute. do 11 right. left. reflexivity. }
  discriminate.
Qed.
Print Assumptions C80_unnoticed_refuted.

(** ** C81: Append and Get return. *)

(** No process panics in which every Append is given only blobs that were never
    given before and that fit in the work buffer, no two Gets of one hash are
    under way at once, and no entry of the index was cut. *)
Theorem C81_no_panic_partial : forall H enc dec W Okb es,
  laws H enc dec W Okb -> okrun (step H enc dec W) Okb blank es ->
  calm (step H enc dec W) (fits enc W) blank es ->
  ~ In ODead (wLog (run H enc dec W blank es)).
Proof.
  intros H enc dec W Okb es L OK CA.
  destruct (run_N _ _ _ _ _ L es blank (J_blank _ _ _) (Str_blank _ _) (N_blank _ _ _) OK CA) as (ND & _).
  exact ND.
Qed.
Print Assumptions C81_no_panic_partial.

Example C81_no_panic_ex : calm stp0 (fits enc0 W0) blank es1.
Proof.
  unfold es1. cbn [calm].
  assert (F : forall d, In d [bA; bB; [9]] -> fits enc0 W0 d).
  { intros d [<-|[<-|[<-|[]]]]; unfold fits, W0; cbn; (split; [discriminate|]; split; [discriminate|lia]). }
  split; [vm_compute; reflexivity|].
  split.
  { split; [repeat constructor; apply F; cbn; auto|]. split.
    - repeat constructor; cbn; intuition; discriminate.
    - intros d _ (b & Ib & _). vm_compute in Ib. destruct Ib as [E|[]]. discriminate. }
  do 3 (split; [exact I|]).
  split; [vm_compute; intuition|]. split; [vm_compute; intuition; discriminate|]. split; [exact I|].
  split.
  { split; [repeat constructor; apply F; cbn; auto|]. split.
    - repeat constructor; cbn; intuition; discriminate.
    - intros d [<-|[]] (b & Ib & Id). vm_compute in Ib.
      repeat (destruct Ib as [E|Ib]; [try discriminate; injection E as <-; vm_compute in Id;
        destruct Id as [E|[E|[]]]; discriminate|]). contradiction. }
  split; [exact I|]. split; [vm_compute; reflexivity|].
  split; [vm_compute; intuition|]. split; [exact I|]. split; [vm_compute; intuition|exact I].
Qed.

(** Nor does a process that starts with an empty store and is given no more
    different blobs than fit in its cache, whatever it is given twice and
    whichever Gets are under way at once. *)
Theorem C81_cached_partial : forall H enc dec W Okb U max picks es,
  laws H enc dec W Okb ->
  (length U <= max)%nat -> Forall Okb U -> Forall (fun d => d <> []) U -> Forall (within U) es ->
  ~ In ODead (wLog (run H enc dec W blank (EOpen max false picks :: es))).
Proof.
  intros H enc dec W Okb U max picks es L LU OU NU WI. cbn [run].
  assert (J1 : J H enc Okb (step H enc dec W blank (EOpen max false picks))).
  { apply (open_J _ _ _ _ _ L max picks [] [] []); [exact (proj1 (J_blank H enc Okb))|exact (Str_blank H enc)]. }
  destruct (UI_run _ _ _ _ _ L U max es _ LU OU NU J1) with (2 := WI) as (ND & _); [|exact ND].
  split; [cbn; intros [E|[]]; discriminate|].
  split; [intros d (b & [E|[]] & _); discriminate|].
  eexists. split; [reflexivity|]. split; [reflexivity|]. split.
  - unfold cacheOK. cbn. split; [constructor|]. split; [|lia]. intro k.
    split; [intros []|intro F; exfalso; apply F; reflexivity].
  - split; [reflexivity|]. intro k. cbn. split; [intro F; exfalso; apply F; reflexivity|intros (e & [] & _)].
Qed.
Print Assumptions C81_cached_partial.

Example C81_cached_ex :
  Forall (within [bA; bB]) [EApp [bA; bB; bA]; EStep 0; EGet 0 (H0 bA); EGet 1 (H0 bA); EStep 0; EStep 0; EStep 0; EApp [bB]] /\
  wLog (run0 (EOpen 2 false pk :: [EApp [bA; bB; bA]; EStep 0; EGet 0 (H0 bA); EGet 1 (H0 bA); EStep 0; EStep 0; EStep 0; EApp [bB]]))
    = [OOpen; OApp [bA; bB; bA]; OAsk 0 (H0 bA); OGot 0 (H0 bA) (Some bA); OAsk 1 (H0 bA); OGot 1 (H0 bA) (Some bA);
       ODone [bA; bB; bA] 2; OApp [bB]].
Proof.
  split; [|vm_compute; reflexivity].
  repeat (apply Forall_cons; [first [exact I | intros d Id; cbn in *; intuition]|]). constructor.
Qed.

(** An Append of a blob that is in the store and no longer in the cache panics. *)
Theorem C81_evicted_refuted : exists H enc dec W Okb es,
  laws H enc dec W Okb /\ okrun (step H enc dec W) Okb blank es /\
  (forall b d, In (EApp b) es -> In d b -> fits enc W d) /\
  Forall (fun e => match e with EKill _ _ _ | EGet _ _ => False | _ => True end) es /\
  exists l d, wLog (run H enc dec W blank es) = l ++ [OApp [d]; ODead] /\ kept l d.
Proof.
  exists H0, enc0, dec0, W0, Ok0,
    [EOpen 1 false pk; EApp [bA; bB]; EStep 0; EStep 0; EStep 0; EApp [bA]; EStep 0].
  split; [exact laws0|]. split.
  - cbn [okrun].
    repeat match goal with
    | |- _ /\ _ => split
    | |- True => exact I
    | |- false = false => reflexivity
    | |- Forall Ok0 _ => repeat constructor; unfold Ok0; cbn; lia
    end.
    intros _. left. split; vm_compute; reflexivity.
  - split.
    { intros b d Ib Id. cbn in Ib.
      assert (d = bA \/ d = bB) as [-> | ->] by (repeat (destruct Ib as [E|Ib]; [try discriminate; injection E as <-; cbn in Id; intuition|]); contradiction);
      unfold fits, W0; cbn; (split; [discriminate|]; split; [discriminate|lia]). }
    split; [repeat constructor|].
    exists [OOpen; OApp [bA; bB]; ODone [bA; bB] 2], bA. split; [vm_compute; reflexivity|].
    exists [bA; bB], 2%nat. cbn. auto.
Qed.
Print Assumptions C81_evicted_refuted.

(** So does an Append of a blob that an earlier process stored. *)
Theorem C81_reopened_refuted : exists H enc dec W Okb es,
  laws H enc dec W Okb /\ okrun (step H enc dec W) Okb blank es /\
  exists d l, kept l d /\ wLog (run H enc dec W blank es) = l ++ [OKill; OOpen; OApp [d]; ODead].
Proof.
  exists H0, enc0, dec0, W0, Ok0,
    [EOpen 4 false pk; EApp [bA]; EStep 0; EStep 0; EKill 0 0 0; EOpen 4 false pk; EApp [bA]; EStep 0].
  split; [exact laws0|]. split.
  - cbn [okrun].
    repeat match goal with
    | |- _ /\ _ => split
    | |- True => exact I
    | |- false = false => reflexivity
    | |- Forall Ok0 _ => repeat constructor; unfold Ok0; cbn; lia
    end; intros _; left; split; vm_compute; reflexivity.
  - exists bA, [OOpen; OApp [bA]; ODone [bA] 1]. split; [exists [bA], 1%nat; cbn; auto|vm_compute; reflexivity].
Qed.
Print Assumptions C81_reopened_refuted.

(** Without a cache, so does a batch that holds a blob twice. *)
Theorem C81_nocache_refuted : exists H enc dec W Okb es d,
  laws H enc dec W Okb /\ okrun (step H enc dec W) Okb blank es /\
  wLog (run H enc dec W blank es) = [OOpen; OApp [d; d]; ODead].
Proof.
  exists H0, enc0, dec0, W0, Ok0, [EOpen 0 false pk; EApp [bA; bA]; EStep 0; EStep 0], bA.
  split; [exact laws0|]. split; [|vm_compute; reflexivity].
  cbn [okrun].
  repeat match goal with
  | |- _ /\ _ => split
  | |- True => exact I
  | |- false = false => reflexivity
  | |- Forall Ok0 _ => repeat constructor; unfold Ok0; cbn; lia
  end. intros _. left. split; vm_compute; reflexivity.
Qed.
Print Assumptions C81_nocache_refuted.

(** Two concurrent Gets of one blob spoil the cache: a later Get panics. *)
Theorem C81_concurrent_refuted : exists H enc dec W Okb es,
  laws H enc dec W Okb /\ okrun (step H enc dec W) Okb blank es /\
  exists a b, a <> b /\ wLog (run H enc dec W blank es) =
    [OOpen; OApp [a; b]; ODone [a; b] 2; OAsk 0 (H a); OAsk 1 (H a);
     OGot 0 (H a) (Some a); OGot 1 (H a) (Some a); OAsk 2 (H b); ODead].
Proof.
  exists H0, enc0, dec0, W0, Ok0,
    [EOpen 1 false pk; EApp [bA; bB]; EStep 0; EStep 0; EStep 0; EGet 0 (H0 bA); EGet 1 (H0 bA);
     EDisk 0 0; EDisk 1 0; EGet 2 (H0 bB); EDisk 2 0].
  split; [exact laws0|]. split.
  - cbn [okrun].
    repeat match goal with
    | |- _ /\ _ => split
    | |- True => exact I
    | |- false = false => reflexivity
    | |- Forall Ok0 _ => repeat constructor; unfold Ok0; cbn; lia
    end. intros _. left. split; vm_compute; reflexivity.
  - exists bA, bB. split; [discriminate|vm_compute; reflexivity].
Qed.
Print Assumptions C81_concurrent_refuted.

(** A blob whose record is larger than the work buffer can be stored, and a Get
    that has to read it from the file panics. *)
Theorem C81_big_refuted : forall H enc dec W Okb d p,
  laws H enc dec W Okb -> Okb d -> d <> [] -> (W < 64 + length (enc d))%nat ->
  wLog (run H enc dec W blank
    [EOpen 0 false pk; EApp [d]; EStep p; EStep p; EGet 0 (H d); EDisk 0 p])
  = [OOpen; OApp [d]; ODone [d] 1; OAsk 0 (H d); ODead].
Proof.
  intros H enc dec W Okb d p L Od Nd BG.
  destruct (clen_ok _ _ _ _ _ L d Od) as [C1 C2].
  assert (LT : Nat.ltb (W - 0) 64 = false) by (apply Nat.ltb_ge; pose proof (law_W _ _ _ _ _ L); lia).
  set (e := Ent (H d) 0 (64 + len (enc d)) (len d)).
  assert (RA : forall data, readAt W data 0 (64 + len (enc d)) = None).
  { intro data. unfold readAt.
    assert (C : Z.of_nat W <? 64 + len (enc d) = true) by (apply Z.ltb_lt; unfold len; lia).
    rewrite C, !orb_true_r. reflexivity. }
  assert (E1 : step H enc dec W blank (EOpen 0 false pk)
               = World [] [] (Some (Cas [] [] [] 0 [] None [])) [OOpen]) by reflexivity.
  assert (E2 : step H enc dec W (World [] [] (Some (Cas [] [] [] 0 [] None [])) [OOpen]) (EApp [d])
               = World [] [] (Some (Cas [] [] [] 0 [] (Some ([d], [d], 0%nat)) [])) [OOpen; OApp [d]])
    by reflexivity.
  assert (E3 : step H enc dec W (World [] [] (Some (Cas [] [] [] 0 [] (Some ([d], [d], 0%nat)) []))
                                       [OOpen; OApp [d]]) (EStep p)
               = World (header e ++ enc d) [] (Some (Cas [e] [] [] 0 (header e) (Some ([d], [], 1%nat)) []))
                       [OOpen; OApp [d]]).
  { subst e. cbn [step wUp wData]. unfold appStep. cbn [cJob]. destruct d as [|x d'] eqn:Ed; [congruence|]. rewrite <- Ed in *.
    cbv zeta. cbn [cMem cIdx findMem find option_map findIdx Bool.eqb negb].
    unfold addMem. cbn [cMax Nat.eqb cBuf length cIdx cMem cKeys cWait Z.of_nat].
    rewrite LT, C1, C2.
    reflexivity. }
  assert (E4 : step H enc dec W (World (header e ++ enc d) []
                   (Some (Cas [e] [] [] 0 (header e) (Some ([d], [], 1%nat)) [])) [OOpen; OApp [d]]) (EStep p)
               = World (header e ++ enc d) (header e) (Some (Cas [e] [] [] 0 [] None []))
                       [OOpen; OApp [d]; ODone [d] 1]) by reflexivity.
  cbn [run]. rewrite E1.
  rewrite E2, E3, E4.
  assert (E5 : step H enc dec W (World (header e ++ enc d) (header e) (Some (Cas [e] [] [] 0 [] None []))
                       [OOpen; OApp [d]; ODone [d] 1]) (EGet 0 (H d))
               = World (header e ++ enc d) (header e) (Some (Cas [e] [] [] 0 [] None [(0%nat, e)]))
                       [OOpen; OApp [d]; ODone [d] 1; OAsk 0 (H d)]).
  { cbn [step wUp cWait existsb]. unfold getStep. cbn [cIdx cMem]. unfold findIdx. cbn [find].
    change (eKey e) with (H d). rewrite beq_refl. reflexivity. }
  rewrite E5. cbn [step wUp wData]. unfold diskStep. cbn [cJob cWait find fst Nat.eqb].
  change (eBeg e) with 0. change (eClen e) with (64 + len (enc d)). rewrite RA. reflexivity.
Qed.
Print Assumptions C81_big_refuted.

Example C81_big_ex : let W := 70%nat in let d := [1; 2; 3; 4; 5; 6; 7] in
  Ok0 d /\ (W < 64 + length (enc0 d))%nat /\
  wLog (run H0 enc0 dec0 W blank [EOpen 1 false pk; EApp [d]; EStep 0; EStep 0; EGet 0 (H0 d)])
    = [OOpen; OApp [d]; ODone [d] 1; OAsk 0 (H0 d); OGot 0 (H0 d) (Some d)].
Proof. split; [unfold Ok0; cbn; lia|]. split; [cbn; lia|vm_compute; reflexivity]. Qed.

(** ** C82: at most MaxMemBlob blobs are in memory. *)

(** In every execution at all, the running store has in memory at most as many
    blobs as the MaxMemBlob it was opened with, each under one key. *)
Theorem C82_bound : forall H enc dec W es s,
  wUp (run H enc dec W blank es) = Some s ->
  (length (cMem s) <= maxOf H enc dec W 0 blank es)%nat /\ NoDup (map fst (cMem s)).
Proof.
  intros H enc dec W es s U.
  destruct (BI_run H enc dec W es blank 0) with (s := s) as ((N1 & N2 & N3) & CM);
    [intros s0 E; discriminate|exact U|].
  split; [|exact N1]. rewrite <- CM.
  pose proof (NoDup_incl_length N1 N2) as LE. rewrite map_length in LE. lia.
Qed.
Print Assumptions C82_bound.

Example C82_bound_ex :
  let es := [EOpen 2 false pk; EApp [bA; bB; [9]]; EStep 0; EStep 0; EStep 1] in
  maxOf H0 enc0 dec0 W0 0 blank es = 2%nat /\
  exists s, wUp (run0 es) = Some s /\ map snd (cMem s) = [[9]; bA].
Proof. split; [vm_compute; reflexivity|]. eexists. split; vm_compute; reflexivity. Qed.

(** The header of a record, written and read back, gives the same hash and
    sizes. *)
Theorem C79_header : forall H enc dec W Okb d beg r,
  laws H enc dec W Okb -> Okb d ->
  unheader beg (header (Ent (H d) beg (64 + Z.of_nat (length (enc d))) (Z.of_nat (length d))) ++ r)
  = Ent (H d) beg (64 + Z.of_nat (length (enc d))) (Z.of_nat (length d)) /\
  length (header (Ent (H d) beg (64 + Z.of_nat (length (enc d))) (Z.of_nat (length d)))) = 64%nat.
Proof.
  intros H enc dec W Okb d beg r L Od. split.
  - exact (unheader_hdr _ _ _ _ _ L beg d r Od).
  - exact (hdr_length _ _ _ _ _ L d).
Qed.
Print Assumptions C79_header.

Example C79_header_ex : unheader 5 (header (Ent (H0 bA) 5 300 70000)) = Ent (H0 bA) 5 300 70000.
Proof. vm_compute. reflexivity. Qed.
