(** 3D solver: the decomposition used by the library and well-formed runs. *)
From Coq Require Import ZArith List Bool Lia ZifyBool.
From Verif Require Import SpecIndex ModelIndex ProofsIndex ModelRun Lang ProofsLang Stencil ProofsStencil
  FormCommon Form3D Solver1D Solver3D ProofsThread1D.
Import ListNotations.
Local Open Scope Z_scope.

Definition geom3 (r : run3) (n : nat) : geom :=
  {| g_dd := DY; g_cut := cut1 (s3_lo r DY) (s3_hi r DY) n; g_grid := fun d => (s3_lo r d, s3_hi r d) |}.

Record run3_ok (r : run3) : Prop := {
  ok3_fl : fl_ok3 (s3_o r) = true;
  ok3_nit : (0 < s3_nit r)%nat;
  ok3_grid : forall d, halo (s3_o r) <= s3_hi r d - s3_lo r d
}.

Lemma geom3_ok r n : run3_ok r -> (0 < n)%nat -> Z.of_nat n <= s3_hi r DY - s3_lo r DY + 1 -> geom_ok (geom3 r n).
Proof.
  intros [_ _ G] Hn Hs. constructor; [apply cut1_ok; auto|]. cbn [geom3 g_grid].
  pose proof (halo_pos (s3_o r)).
  intros d. pose proof (G d). unfold first, last; cbn [fst snd]; lia.
Qed.

Definition program3 (r : run3) (n nt : nat) : list (instr loc) := prog_of (geom3 r n) (run_prog3 r nt).
