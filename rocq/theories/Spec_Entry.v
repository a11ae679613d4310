(** Specification for the claims about the entry points' checks. *)

From Coq Require Import String List Bool Arith.
From Verif Require Import PyTree Spec_PyTree Entry.
Import ListNotations.
Local Open Scope nat_scope.

(** Widest floating and complex types available *)
Definition float_dtype (x64 : bool) : dtype := if x64 then DFloat 64 else DFloat 32.
Definition complex_dtype (x64 : bool) : dtype := if x64 then DComplex 128 else DComplex 64.

(** [stored x64 v d]: the number or array v, converted to an inexact array, has dtype d.
    Booleans and integers become floats; floats and complex numbers keep their dtype,
    except that without x64 the 64-bit float and the 128-bit complex are halved. *)
Inductive stored (x64 : bool) : pyval -> dtype -> Prop :=
| st_bool : stored x64 PyBool (float_dtype x64)
| st_int : stored x64 PyInt (float_dtype x64)
| st_float : stored x64 PyFloat (float_dtype x64)
| st_complex : stored x64 PyComplex (complex_dtype x64)
| st_abool : forall sh, stored x64 (Arr (mkSds sh DBool)) (float_dtype x64)
| st_aint : forall sh s n, stored x64 (Arr (mkSds sh (DInt s n))) (float_dtype x64)
| st_afloat : forall sh n, n <> 64 -> stored x64 (Arr (mkSds sh (DFloat n))) (DFloat n)
| st_afloat64 : forall sh, stored x64 (Arr (mkSds sh (DFloat 64))) (float_dtype x64)
| st_abf16 : forall sh, stored x64 (Arr (mkSds sh DBFloat16)) DBFloat16
| st_acomplex : forall sh n, n <> 128 -> stored x64 (Arr (mkSds sh (DComplex n))) (DComplex n)
| st_acomplex128 : forall sh, stored x64 (Arr (mkSds sh (DComplex 128))) (complex_dtype x64).

(** The shape of a number or array *)
Definition has_shape (v : pyval) (sh : list nat) : Prop :=
  match v with Arr a => sd_shape a = sh | _ => sh = [] end.

(** Same containers, and each leaf converted with its shape kept *)
Definition converted (x64 : bool) : tree pyval -> tree sds -> Prop :=
  same_structure (fun v s => has_shape v (sd_shape s) /\ stored x64 v (sd_dtype s)).

(** A boolean, integer or floating-point number, or such an array of shape () *)
Definition real_scalar (v : pyval) : Prop :=
  has_shape v [] /\
  match v with
  | PyComplex => False
  | Arr a => forall n, sd_dtype a <> DComplex n
  | _ => True
  end.

(** The mathematical output of the user's function *)
Definition value_of (fn : user_fn) (y : tree sds) : tree pyval :=
  match fn with Plain f => f y | HasAux f => fst (f y) end.

(** Some leaf is complex *)
Definition some_complex (t : tree sds) : Prop := exists s n, In s (leaves t) /\ sd_dtype s = DComplex n.
