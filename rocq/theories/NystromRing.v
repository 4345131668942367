(* Two identities between real numbers, for NystromProofs.v. *)
From Coq Require Import Reals.
Local Open Scope R_scope.
Lemma mean_ring (q N P C i2 i4 Y nu : R) :
  q * (N * (nu * P) * i2 + N * N * (nu * nu) * C * i4) * Y = q * (N * P * i2) * Y * nu + q * (N * N * C * i4) * Y * (nu * nu).
Proof. ring. Qed.
Lemma variance_ring (q N P C i2 i4 nu : R) :
  q * ((N * (nu * P) * i2 + N * N * (nu * nu) * C * i4) * C + N * (nu * P) * (C + N * (nu * P)) * i2) =
  q * (N * P * i2 * C + N * P * C * i2) * nu + q * (N * N * C * i4 * C + N * P * (N * P) * i2) * (nu * nu).
Proof. ring. Qed.
