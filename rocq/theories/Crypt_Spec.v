(** Independent specification of the encrypted-connection properties C06-C10. *)
From Coq Require Import List NArith Arith Lia Bool String.
From Verif Require Import Base Wire_Model Wire_Spec Crypt_Model.
Import ListNotations.
Open Scope N_scope.

(** What is assumed of the cipher: Open inverts Seal, Seal adds 16 bytes, the
    PACT transform of the tag is invertible and keeps its size. *)
Definition aead_ok (a : aead) : Prop :=
  (forall n ad p, aopen a n ad (seal a n ad p) = Some p) /\
  (forall n ad p, List.length (seal a n ad p) = (List.length p + 16)%nat) /\
  (forall ad n t, List.length t = 16%nat ->
     tagDec a ad n (tagEnc a ad n t) = t /\ List.length (tagEnc a ad n t) = 16%nat).

(** A fresh connection side whose random nonce material is 16 bytes. *)
Definition rand16 (r : bytes) : Prop := List.length r = 16%nat /\ Forall (fun b => b < 256) r.

(** The frames among the results. *)
Definition framesOf (rs : list encRes) : list bytes :=
  flat_map (fun r => match r with EFrame f => [f] | EErr _ => [] end) rs.

(** The messages whose call produced a frame. *)
Definition sentOf (calls : list (N * msg)) (rs : list encRes) : list msg :=
  flat_map (fun p => match snd p with EFrame _ => [snd (fst p)] | EErr _ => [] end) (combine calls rs).

(** The nonce travels in clear in bytes 8..23 of a frame. *)
Definition nonceOf (f : bytes) : bytes := firstn 16 (skipn 8 f).
