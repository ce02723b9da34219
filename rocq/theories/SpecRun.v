(** Specifications for the time-stepping properties. *)
From Coq Require Import ZArith NArith List.
Import ListNotations.
Local Open Scope Z_scope.

(** A mask of delayed equations is valid when it names existing equations only. *)
Definition mask_names_existing (n_eqns : nat) (mask : N) : Prop :=
  forall k, N.testbit mask k = true -> (N.to_nat k < n_eqns)%nat.

Definition total (calls : list Z) : Z := fold_right Z.add 0 calls.
