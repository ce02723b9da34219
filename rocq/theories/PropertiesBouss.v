(** Property theorems: the Boussinesq solvers. *)
From Coq Require Import ZArith List Bool Reals Lra Lia.
From Verif Require Import Stencil ModelVip ModelStress ModelBouss SpecStress SpecBouss ModelHeat SpecHeat
  ProofsBouss2 ProofsBouss3 ProofsBouss4 ProofsHeat.
Import ListNotations.
Local Open Scope R_scope.

(** C92: every step of both variants is one step of the trapezoidal rule along
    the flow, for the equations of SpecBouss.v: the implicit variant for
    deviations from the ambient profile, the explicit one for full temperature. *)
Theorem C92_trapezoidal_steps : forall c n u, solvable c ->
  trapezoidal (c_dt c) (c_adv c n) (state c n u) (state c (S n) u)
    (rate c (heating c n u) (p_force c n u) (state c n u))
    (rate c (heating c (S n) u) (p_force c (S n) u) (state c (S n) u)) (ahead c n u).
Proof. exact every_step. Qed.
Print Assumptions C92_trapezoidal_steps.
Example C92_example : solvable (wave_case two) /\ solvable (wave_case three) /\ solvable heated_case.
Proof. exact (conj (wave_solvable two) (conj (wave_solvable three) heated_solvable)). Qed.

(** C93: oscillations of a stably stratified fluid in the implicit variant keep
    kinetic plus available potential energy, for every time step; absorbers only
    take energy away.  First for pressure doing no net work, then for flows
    without divergence pushed by pressure gradients on a cyclic domain. *)
Theorem C93_wave_energy_kept : forall c u, solvable c -> c_impl c = true -> c_ab c <> Expl -> c_sgs c = None ->
  (forall i, c_heat c i = 0) -> (forall m s, c_adv c m s = s) -> (forall d i, c_relax c d i = 0) ->
  forall L, (forall i, In i L -> 0 < profile c i) -> forall n,
  (forall i, In i L -> c_abs c i = 0) -> (forall i, In i L -> c_coeff c i = 0) ->
  (forall m, (m < n)%nat -> sum_over L (p_work c u m) = 0) ->
  sum_over L (energy (ndn (c_nd c)) (phys_of c) (state c n u)) = sum_over L (energy (ndn (c_nd c)) (phys_of c) (state c 0 u)).
Proof. exact energy_kept. Qed.
Print Assumptions C93_wave_energy_kept.
Theorem C93_wave_energy_never_grows : forall c u, solvable c -> c_impl c = true -> c_ab c <> Expl -> c_sgs c = None ->
  (forall i, c_heat c i = 0) -> (forall m s, c_adv c m s = s) -> (forall d i, c_relax c d i = 0) ->
  forall L, (forall i, In i L -> 0 < profile c i) -> forall n,
  0 < c_dt c -> 0 < c_g c / c_T c -> (forall i, In i L -> 0 <= c_abs c i) -> (forall i, In i L -> 0 <= c_coeff c i) ->
  (forall m, (m < n)%nat -> sum_over L (p_work c u m) = 0) ->
  sum_over L (energy (ndn (c_nd c)) (phys_of c) (state c n u)) <= sum_over L (energy (ndn (c_nd c)) (phys_of c) (state c 0 u)).
Proof. exact energy_never_grows. Qed.
Print Assumptions C93_wave_energy_never_grows.
Theorem C93_flow_energy_kept : forall c u n dx N, solvable c -> c_impl c = true -> c_ab c <> Expl -> c_sgs c = None ->
  (forall i, c_heat c i = 0) -> (forall m s, c_adv c m s = s) -> (forall d i, c_relax c d i = 0) -> (forall i, 0 < profile c i) ->
  (forall i, c_abs c i = 0) -> (forall i, c_coeff c i = 0) -> (forall d, (0 < n d)%Z) -> (forall d, dx d <> 0) ->
  (forall m, (m <= N)%nat -> gradient n (ndn (c_nd c)) dx (p_force c m u) /\ div_free n (ndn (c_nd c)) dx (fst (state c m u))) ->
  cells n (energy (ndn (c_nd c)) (phys_of c) (state c N u)) = cells n (energy (ndn (c_nd c)) (phys_of c) (state c 0 u)).
Proof. exact energy_flow. Qed.
Print Assumptions C93_flow_energy_kept.
Theorem C93_flow_energy_never_grows : forall c u n dx N, solvable c -> c_impl c = true -> c_ab c <> Expl -> c_sgs c = None ->
  (forall i, c_heat c i = 0) -> (forall m s, c_adv c m s = s) -> (forall d i, c_relax c d i = 0) -> (forall i, 0 < profile c i) ->
  0 < c_dt c -> 0 < c_g c / c_T c -> (forall i, 0 <= c_abs c i) -> (forall i, 0 <= c_coeff c i) ->
  (forall d, (0 < n d)%Z) -> (forall d, dx d <> 0) ->
  (forall m, (m <= N)%nat -> gradient n (ndn (c_nd c)) dx (p_force c m u) /\ div_free n (ndn (c_nd c)) dx (fst (state c m u))) ->
  cells n (energy (ndn (c_nd c)) (phys_of c) (state c N u)) <= cells n (energy (ndn (c_nd c)) (phys_of c) (state c 0 u)).
Proof. exact energy_flow_le. Qed.
Print Assumptions C93_flow_energy_never_grows.
Example C93_example :
  (forall n, sum_over [(0, 0, 0)%Z; (1, 5, 2)%Z] (energy 2 (phys_of (wave_case two)) (state (wave_case two) n lifting)) = 2) /\
  (forall N n dx, (forall d, dx d <> 0) -> forall m, (m <= N)%nat ->
     gradient n 2 dx (p_force (wave_case two) m lifting) /\ div_free n 2 dx (fst (state (wave_case two) m lifting))) /\
  (forall i, profile (wave_case two) i = 3 / 2).
Proof. exact (conj wave_case_ok (conj wave_flow_ok (wave_profile two))). Qed.

(** C94: air at rest with the ambient temperature stays so, whatever the
    stratification, in both variants. *)
Theorem C94_rest_stays : forall c n, c_T c <> 0 -> c_dt c <> 0 -> (forall i, 1 + c_dt c / 2 * c_abs c i <> 0) ->
  (forall d i, c_relax c d i = 0) -> c_sgs c = None -> (forall i, c_heat c i = 0) ->
  (forall m, c_adv c m (rest c) = rest c) -> (forall m, c_prs c m (fun _ _ => 0) = fun _ _ => 0) -> c_ini c (fun _ _ => 0) = (fun _ _ => 0) ->
  state c n (rest c) = rest c.
Proof. exact stays_at_rest. Qed.
Print Assumptions C94_rest_stays.
Example C94_example : state (wave_case three) 3 (rest (wave_case three)) = rest (wave_case three) /\ c_e (wave_case three) (0, 0, 4)%Z = 12.
Proof. split; [apply C94_rest_stays; cbn; try reflexivity; intros; cbn; lra|cbn; lra]. Qed.

(** C95: heat.  Without a closure the total temperature of the explicit variant
    grows by exactly the heating times elapsed time; with one, what the closure
    computes in the last step counts half so far, and a constant heating is
    half a step behind. *)
Theorem C95_heat_budget : forall c u L, solvable c -> c_impl c = false -> (forall i, c_abs c i = 0) ->
  (forall n s, sum_over L (snd (c_adv c n s)) = sum_over L (snd s)) -> forall n, c_sgs c = None ->
  sum_over L (snd (state c n u)) = sum_over L (snd (state c 0 u)) + INR n * c_dt c * sum_over L (c_heat c).
Proof. exact heat_iles. Qed.
Print Assumptions C95_heat_budget.
Theorem C95_heat_budget_closure : forall c u L, solvable c -> c_impl c = false -> (forall i, c_abs c i = 0) ->
  (forall n s, sum_over L (snd (c_adv c n s)) = sum_over L (snd s)) -> forall n f, c_sgs c = Some f ->
  sum_over L (snd (state c (S n) u)) = sum_over L (snd (state c 0 u)) +
    c_dt c * sum_to n (fun m => sum_over L (snd (f m (state c m u)))) + c_dt c / 2 * sum_over L (snd (f n (state c n u))).
Proof. exact heat_closure. Qed.
Print Assumptions C95_heat_budget_closure.
Theorem C95_closure_heat_refuted : exists c u L f n,
  solvable c /\ c_impl c = false /\ (forall i, c_abs c i = 0) /\ (forall n s, sum_over L (snd (c_adv c n s)) = sum_over L (snd s)) /\
  c_sgs c = Some f /\ (forall m s, sum_over L (snd (f m s)) = 1) /\
  sum_over L (snd (state c n u)) <> sum_over L (snd (state c 0 u)) + INR n * c_dt c * 1.
Proof. exact heat_refuted. Qed.
Print Assumptions C95_closure_heat_refuted.
Example C95_example : exists c u L n, c_sgs c = None /\ solvable c /\ c_impl c = false /\ (forall i, c_abs c i = 0) /\
  sum_over L (snd (state c n u)) <> sum_over L (snd (state c 0 u)).
Proof. exact heat_case. Qed.

(** C96: smoothing of the buoyancy keeps its total on cyclic domains and its
    bounds, and removes waves two cells long. *)
Theorem C96_smoothing_keeps_total : forall c n f, (forall d, (0 < n d)%Z) -> periodic n f ->
  cells n (smooth (phys_of c) f) = cells n f.
Proof. exact smooth_sum. Qed.
Print Assumptions C96_smoothing_keeps_total.
Theorem C96_smoothing_keeps_bounds : forall c f lo hi, (forall i, lo <= f i <= hi) ->
  forall i, lo <= smooth (phys_of c) f i <= hi.
Proof. exact smooth_bounds. Qed.
Print Assumptions C96_smoothing_keeps_bounds.
Theorem C96_smoothing_removes_waves : forall c f i, c_filter c = true ->
  (forall j, f (SpecStress.step (up (phys_of c)) 1 j) = - f j) -> smooth (phys_of c) f i = 0.
Proof. exact smooth_wave. Qed.
Print Assumptions C96_smoothing_removes_waves.
Example C96_example : let alt := fun i : idx => if Z.even (snd i) then 1 else -1 in
  periodic (fun _ => 2%Z) alt /\ forall j, alt (SpecStress.step 2 1 j) = - alt j.
Proof.
  split.
  - intros d [[x y] z] _. destruct d as [|[|d]]; cbn -[Z.even]; rewrite ?Z.even_add; destruct (Z.even z); reflexivity.
  - intros [[x y] z]. cbn -[Z.even]. rewrite Z.even_add. destruct (Z.even z); cbn; lra.
Qed.

(** C97: the eddy viscosity under stratification is the squared mixing length
    times the root of what shear exceeds stratification by; it falls with
    stratification and vanishes beyond the critical Richardson number... *)
Theorem C97_eddy_viscosity : forall g T pr c l ga gb s2, 0 < T -> 0 < pr -> 0 <= s2 -> 0 < s2 \/ 0 <= g * (ga + gb) ->
  k_m g T pr c l ga gb s2 = Fin (ri_visc c l pr (g * ((ga + gb) / 2) / T) s2).
Proof. exact visc_closed. Qed.
Print Assumptions C97_eddy_viscosity.
Theorem C97_critical_richardson : forall g T pr c l ga gb s2, 0 < T -> 0 < pr -> 0 <= s2 -> 0 < s2 \/ 0 <= g * (ga + gb) ->
  exists x, k_m g T pr c l ga gb s2 = Fin x /\ 0 <= x /\ (pr * s2 <= g * ((ga + gb) / 2) / T -> x = 0).
Proof. exact visc_cut. Qed.
Print Assumptions C97_critical_richardson.
Theorem C97_stratification_damps : forall g T pr c l ga gb ga' gb' s2, 0 < g -> 0 < T -> 0 < pr -> 0 < s2 -> ga + gb <= ga' + gb' ->
  exists x x', k_m g T pr c l ga gb s2 = Fin x /\ k_m g T pr c l ga' gb' s2 = Fin x' /\ x' <= x.
Proof. exact visc_mono. Qed.
Print Assumptions C97_stratification_damps.
Example C97_example : 0 < ri_visc 1 1 1 (1 * ((1 + 1) / 2) / 1) 2.
Proof.
  unfold ri_visc. replace (2 - 1 * ((1 + 1) / 2) / 1 / 1) with 1 by field. rewrite Rmax_right by lra.
  rewrite sqrt_1. unfold Rsqr. lra.
Qed.
(** ... but in a cell without shear and with temperature falling with height it
    is not a number, and so is the heating of the column. *)
Theorem C97_unstable_rest_refuted : exists g T pr c l ga gb, 0 < g /\ 0 < T /\ 0 < pr /\ 0 < c /\ 0 < l /\
  k_m g T pr c l ga gb 0 <> Fin (ri_visc c l pr (g * ((ga + gb) / 2) / T) 0) /\
  forall dz grad kb fb, col_heating dz (face_flux pr grad (k_m g T pr c l ga gb 0) kb) fb = NaN.
Proof. exact visc_refuted. Qed.
Print Assumptions C97_unstable_rest_refuted.

(** C98: the heating of a domain with cyclic sides, ground and lid adds up to
    what the surface flux brings in, the outermost levels counting half;
    without a surface flux mixing never increases the variance of temperature. *)
Theorem C98_surface_flux_budget : forall nd n dx nug G hc pr km th, (forall d, (0 < n d)%Z) -> (forall d, dx d <> 0) ->
  (forall i, G i <> 0) -> hperiodic nd n G -> (forall d, hperiodic nd n (km d)) -> hperiodic nd n th ->
  (2 <= n (upw nd))%Z ->
  weighted nd n (fun i => Gv nug G i * hflux_frc nd dx nug G (n (upw nd)) hc pr km th i) =
  ground nd n (fun i => hc * Gv nug G i) / dx (upw nd).
Proof. exact budget. Qed.
Print Assumptions C98_surface_flux_budget.
Theorem C98_mixing_reduces_variance : forall nd n dx nug G hc pr km th, (forall d, (0 < n d)%Z) -> (forall d, dx d <> 0) ->
  (forall i, G i <> 0) -> hperiodic nd n G -> (forall d, hperiodic nd n (km d)) -> hperiodic nd n th ->
  (2 <= n (upw nd))%Z -> (forall d, 0 < dx d) -> (forall d i, 0 <= km d i) -> (forall i, 0 < G i) -> 0 < pr -> hc = 0 ->
  weighted nd n (fun i => th i * (Gv nug G i * hflux_frc nd dx nug G (n (upw nd)) hc pr km th i)) <= 0.
Proof. exact variance. Qed.
Print Assumptions C98_mixing_reduces_variance.
Example C98_example :
  (forall d, (0 < three_levels d)%Z) /\ hperiodic two three_levels warm_ground /\ (2 <= three_levels (upw two))%Z /\
  (forall z, hflux_frc two (fun _ => 1) false (fun _ => 1) 3 (1 / 10) 1 (fun _ _ => 1) warm_ground (0, z, 0)%Z =
     if (z =? 0)%Z then -2 + 1 / 5 else if (z =? 1)%Z then 1 else if (z =? 2)%Z then 0 else
     hflux_frc two (fun _ => 1) false (fun _ => 1) 3 (1 / 10) 1 (fun _ _ => 1) warm_ground (0, z, 0)%Z).
Proof. exact column_example. Qed.
