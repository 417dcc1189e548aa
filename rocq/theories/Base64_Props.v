(** Property theorems C01, C02. *)
From Coq Require Import List NArith.
From Verif Require Import Base64_Model Base64_Proofs.
Import ListNotations.
Open Scope N_scope.

(** C01: decode after encode is the identity on byte strings. *)
Theorem C01_base64_roundtrip : forall b,
  Forall (fun x => x < 256) b -> base64_decode (base64_encode b) = b.
Proof. exact roundtrip. Qed.
Print Assumptions C01_base64_roundtrip.

Example C01_nonvacuous :
  Forall (fun x => x < 256) [255; 0; 128; 7; 200] /\
  base64_decode (base64_encode [255; 0; 128; 7; 200]) = [255; 0; 128; 7; 200].
Proof. split; [repeat constructor|vm_compute; reflexivity]. Qed.

(** C02: the output is the RFC 4648 encoding ... *)
Theorem C02_base64_is_rfc : forall b,
  Forall (fun x => x < 256) b -> base64_encode b = rfc_encode b.
Proof. exact encode_rfc. Qed.
Print Assumptions C02_base64_is_rfc.

(** ... hence letters followed by at most two '=', of length 4*ceil(n/3) ... *)
Theorem C02_base64_shape : forall b,
  Forall (fun x => x < 256) b ->
  exists body p, base64_encode b = body ++ repeat 61 p /\ (p <= 2)%nat /\
    Forall is_letter body /\
    N.of_nat (List.length (base64_encode b)) = 4 * ((N.of_nat (List.length b) + 2) / 3).
Proof. intros b H. rewrite (encode_rfc b H). exact (rfc_shape b). Qed.
Print Assumptions C02_base64_shape.

(** ... and injective. *)
Theorem C02_base64_injective : forall a b,
  Forall (fun x => x < 256) a -> Forall (fun x => x < 256) b ->
  base64_encode a = base64_encode b -> a = b.
Proof.
  intros a b Ha Hb E. rewrite <- (roundtrip a Ha), <- (roundtrip b Hb), E. reflexivity.
Qed.
Print Assumptions C02_base64_injective.

(** Decoding any text yields bytes, and ignores everything after the first
    character outside of the alphabet. *)
Theorem C02_decode_total : forall s, Forall (fun x => x < 256) (base64_decode s).
Proof. intro s. exact (decode_bytes s []). Qed.
Print Assumptions C02_decode_total.

Theorem C02_decode_prefix : forall s x t,
  is_base64 x = false \/ x = 61 -> base64_decode (s ++ x :: t) = base64_decode s.
Proof. intros s x t. exact (decode_stops s [] x t). Qed.
Print Assumptions C02_decode_prefix.

Example C02_nonvacuous :
  base64_encode [77; 97] = [84; 87; 69; 61] /\
  rfc_encode [77; 97] = [84; 87; 69; 61] /\ is_base64 10 = false /\
  base64_decode ([84;87;69;61;10] ++ 10 :: [84]) = [77; 97].
Proof. vm_compute. auto. Qed.
