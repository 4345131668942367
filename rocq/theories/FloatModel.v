(* IEEE 754 double precision numbers with one NaN, rounding to nearest even. The operations are those of Flocq; C++
   doubles have many NaN values, which are not told apart here. *)
From Coq Require Import ZArith.
From Flocq Require Import Core IEEE754.BinarySingleNaN.

Definition b64 : Type := binary_float 53 1024.
Definition prec_pos : Prec_gt_0 53 := eq_refl.
Definition prec_emax : Prec_lt_emax 53 1024 := eq_refl.
Definition fadd : b64 -> b64 -> b64 := @Bplus 53 1024 prec_pos prec_emax mode_NE.
Definition fsub : b64 -> b64 -> b64 := @Bminus 53 1024 prec_pos prec_emax mode_NE.
Definition fmul : b64 -> b64 -> b64 := @Bmult 53 1024 prec_pos prec_emax mode_NE.
Definition fdiv : b64 -> b64 -> b64 := @Bdiv 53 1024 prec_pos prec_emax mode_NE.
Definition fsqrt : b64 -> b64 := @Bsqrt 53 1024 prec_pos prec_emax mode_NE.
Definition fneg : b64 -> b64 := @Bopp 53 1024.
Definition fabs : b64 -> b64 := @Babs 53 1024.
Definition fle : b64 -> b64 -> bool := @Bleb 53 1024.
Definition flt : b64 -> b64 -> bool := @Bltb 53 1024.
Definition fzero : b64 := B754_zero false.
Definition fone : b64 := @Bone 53 1024 prec_pos prec_emax.
(* m * 2^e rounded *)
Definition fval (m e : Z) : b64 := @binary_normalize 53 1024 prec_pos prec_emax mode_NE m e false.
