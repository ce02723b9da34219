(** Data continued beyond walls by mirroring, on the whole plane. *)
From Coq Require Import ZArith Reals.
Local Open Scope Z_scope.

(** walls in cells [lo] and [hi]: the cell of which cell [i] is an image *)
Definition refl (lo hi i : Z) : Z :=
  let k := (i - lo) mod (2 * (hi - lo)) in if k <=? hi - lo then lo + k else 2 * hi - lo - k.
(** values at the faces between cells [i] and [i + 1], with the sign reversed in
    images seen in one mirror *)
Definition refl_face (lo hi : Z) (f : Z -> R) (i : Z) : R :=
  let k := (i - lo) mod (2 * (hi - lo)) in if k <? hi - lo then f (lo + k) else (- f (2 * hi - lo - 1 - k)%Z)%R.
