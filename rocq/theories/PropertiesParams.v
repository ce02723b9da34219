(** Property C120: parameters stored with the output. *)
From Coq Require Import List Bool String NArith ZArith Lia.
From Verif Require Import ModelIndex ModelParams SpecParams ProofsParams.
Import ListNotations.

(** C120: const.h5 can be written for every solver: no group or attribute is created
    twice, none without its group *)
Theorem C120_file_written : forall (V F : Type) (fl : V -> V) (flf : F -> F) s p, (1 <= List.length (p_dijk p) <= 3)%nat ->
  const_file (recorded fl flf p s) <> None.
Proof. exact (fun V F fl flf s p D => file_ok fl flf s p D). Qed.
Print Assumptions C120_file_written.
(** and tells which parameters a run had ... *)
Theorem C120_parameters_found : forall (V F : Type) (fl : V -> V) (flf : F -> F) s p q f f',
  (1 <= List.length (p_dijk p) <= 3)%nat -> (1 <= List.length (p_dijk q) <= 3)%nat -> (s = Boussinesq -> p_sgs p <> dns) ->
  const_file (recorded fl flf p s) = Some f -> const_file (recorded fl flf q s) = Some f' ->
  (forall g n, attr g n f = attr g n f') -> same_setup fl flf s p q.
Proof. exact (fun V F fl flf => setup_from_files fl flf). Qed.
Print Assumptions C120_parameters_found.
(** ... except for Boussinesq solvers with prescribed viscosity: whatever the
    viscosity, drag and way of taking derivatives, files are the same. *)
Theorem C120_boussinesq_dns_refuted : forall (V F : Type) (fl : V -> V) (flf : F -> F) p (eta cdrag : V) sd, p_sgs p = dns ->
  exists q, p_sgs q = dns /\ p_eta q = eta /\ p_cdrag q = cdrag /\ p_sdiff q = sd /\
    const_file (recorded fl flf q Boussinesq) = const_file (recorded fl flf p Boussinesq).
Proof. exact (fun V F fl flf p eta cdrag sd S => ex_intro _ (other_dns p eta cdrag sd) (conj S (conj eq_refl (conj eq_refl (conj eq_refl (dns_lost fl flf p eta cdrag sd S)))))). Qed.
Print Assumptions C120_boussinesq_dns_refuted.
(** a 3D run with the Smagorinsky model or prescribed viscosity; numbers in thousandths *)
Example C120_example : (1 <= List.length (p_dijk (some_run smg)) <= 3)%nat /\
  option_map (attr "sgs" "smg_c") (const_file (recorded (fun v => v) (fun f => f) (some_run smg) Boussinesq)) = Some (Some (Num 165%Z)) /\
  option_map (attr "advection" "opts") (const_file (recorded (fun v => v) (fun f => f) (some_run smg) Boussinesq)) = Some (Some (Names [o_iga; o_fct])) /\
  option_map (attr "sgs" "eta") (const_file (recorded (fun v => v) (fun f => f) (some_run dns) Mpdata_rhs_vip_prs_sgs)) = Some (Some (Num 5%Z)) /\
  option_map (attr "sgs" "eta") (const_file (recorded (fun v => v) (fun f => f) (some_run dns) Boussinesq)) = Some None.
Proof. split; [cbn; lia|]. repeat (apply conj); vm_compute; reflexivity. Qed.
