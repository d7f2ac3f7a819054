(** * C27 (continued): random float sampling in rounded (binary64) arithmetic.
    Uses Flocq's definitions of rounding, and with them the axioms of Coq's [Reals] library. *)
From Coq Require Import Reals Lra Lia ZArith.
From Flocq Require Import Core.
From Verif Require Import M_RoundOps P_RoundOps.
Local Open Scope R_scope.

(** for binary64 bounds xl <= xu and a random number as numpy produces it (at most 1 - 2^-53), the sampled value lies in the box in spite of
    the three roundings (as long as nothing overflows: C27_float_overflow_refuted) *)
Theorem C27_float_rounded : forall xl xu r, is_b64 xl -> is_b64 xu -> xl <= xu -> 0 <= r -> r <= 1 - bpow radix2 (-53) ->
  xl <= sample64 xl xu r <= xu.
Proof. exact sample64_box. Qed.
Example C27_float_rounded_case : is_b64 (-1) /\ is_b64 (3 * bpow radix2 (-54)) /\ -1 <= 3 * bpow radix2 (-54) /\ 0 <= 1 - bpow radix2 (-53).
Proof.
  assert (H54 : 0 < bpow radix2 (-54)) by apply bpow_gt_0.
  assert (bpow radix2 (-53) <= 1). { change 1 with (bpow radix2 0). apply bpow_le. lia. }
  repeat split; try lra.
  - apply generic_format_FLT. exists (Float radix2 (-1) 0); simpl; unfold F2R; simpl; try lra; lia.
  - apply generic_format_FLT. exists (Float radix2 3 (-54)); try (simpl; lia). unfold F2R. simpl Fnum. simpl Fexp. now rewrite Rmult_comm, Rmult_comm.
Qed.
Print Assumptions C27_float_rounded.
