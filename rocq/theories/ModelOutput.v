(** Output scheduling: libmpdata++/output/detail/output_common.hpp and the time
    axis written by libmpdata++/output/hdf5.hpp. *)
From Coq Require Import ZArith List Bool Reals.
From Verif Require Import ModelIndex ModelRun.
Import ListNotations.
Local Open Scope Z_scope.

(** ** Fixed time step *)

(** output_common.hpp:161-164: how many times [record_all] is called after the
    step that made the counter [ts]. *)
Definition record_count (outfreq outstart outwindow : Z) (ts : Z) : nat :=
  length (filter (fun t => (Z.rem (ts - t) outfreq =? 0) && (outstart <=? ts - t))
                 (map Z.of_nat (seq 0 (Z.to_nat outwindow)))).

(** The solver [h] wrapped by [output_common]; records are (timestep, state)
    pairs in the order written.  output_common.hpp:47-66 [hook_ante_loop],
    103-169 [hook_post_step] (fixed-step branches). *)
Definition out_hooks {W : Type} (outfreq outstart outwindow : Z) (h : hooks W) : hooks (W * list (Z * W)) := {|
  h_ante_loop := fun ts nt u => let w := h_ante_loop h ts nt (fst u) in (w, snd u ++ [(ts, w)]);
  h_calc_gc := fun ts u => (h_calc_gc h ts (fst u), snd u);
  h_ante_step := fun ts u => (h_ante_step h ts (fst u), snd u);
  h_adv := fun ts e u => (h_adv h ts e (fst u), snd u);
  h_ante_delayed := fun ts u => (h_ante_delayed h ts (fst u), snd u);
  h_post_step := fun ts u => let w := h_post_step h ts (fst u) in
    (w, snd u ++ repeat (ts, w) (record_count outfreq outstart outwindow ts));
  h_panic := fun u => h_panic h (fst u)
|}.

(** hdf5.hpp:200-202: number of entries of the time axis, [int] arithmetic
    converted to the 64-bit unsigned [hsize_t]; [nt] is the argument of the
    first advance().  (No [int] overflow is modelled: the theorems bound the
    arguments.) *)
Definition nt_out (outfreq outstart outwindow nt : Z) : Z :=
  ((Z.quot (nt - outstart) outfreq + 1) * outwindow + (if outstart =? 0 then 0 else 1)
   - Z.max 0 (outwindow - Z.rem nt outfreq - 1)) mod 2 ^ 64.
(** hdf5.hpp:206-213: entry k in units of dt; the second branch assigns to the
    view starting at element 1, whose first index is 0. *)
Definition axis_entry (outfreq outwindow k : Z) : Z := Z.quot k outwindow * outfreq + Z.rem k outwindow.
Definition time_axis (outfreq outstart outwindow nt : Z) : list Z :=
  let n := Z.to_nat (nt_out outfreq outstart outwindow nt) in
  if outstart =? 0 then map (fun k => axis_entry outfreq outwindow (Z.of_nat k)) (seq 0 n)
  else 0 :: map (fun k => axis_entry outfreq outwindow (Z.of_nat k) + outstart) (seq 0 (n - 1)).

(** ** Adaptive time step (one variable in one cell, exact arithmetic) *)
Local Open Scope R_scope.

Record ost := {
  o_cnt : nat;               (* do_record_cnt *)
  o_rec : R;                 (* record_time *)
  o_t : nat -> R;            (* intrp_times *)
  o_v : nat -> R;            (* intrp_vars of the variable *)
  o_time : R; o_y : R;       (* solver time, current value *)
  o_out : list (R * R)       (* what was recorded *)
}.
Definition setn (f : nat -> R) (k : nat) (v : R) : nat -> R := fun j => if Nat.eqb j k then v else f j.
(** [std::floor] *)
Definition floor (x : R) : Z := Int_part x.

Section VarOut.
  Variables (ord : nat) (outfreq : R).

  (** output_common.hpp:47-66 *)
  Definition out_start (t y : R) : ost :=
    {| o_cnt := 0; o_rec := t; o_t := fun _ => 0; o_v := setn (fun _ => 0) 0 y;
       o_time := t; o_y := y; o_out := [(t, y)] |}.

  (** output_common.hpp:73-101 [hook_ante_step] *)
  Definition out_ante (dt : R) (s : ost) : ost :=
    let next_idx := floor ((o_time s + dt) / outfreq) in
    let curr_idx := floor (o_time s / outfreq) in
    let cnt := pred (o_cnt s) in
    if (curr_idx <? next_idx)%Z || Nat.ltb 0 cnt then
      let fresh := Nat.eqb cnt 0 in
      let cnt' := if fresh then ord else cnt in
      let rec' := if fresh then IZR next_idx * outfreq else o_rec s in
      let inc := (ord - cnt')%nat in
      {| o_cnt := cnt'; o_rec := rec'; o_t := setn (o_t s) inc (o_time s); o_v := setn (o_v s) inc (o_y s);
         o_time := o_time s; o_y := o_y s; o_out := o_out s |}
    else {| o_cnt := cnt; o_rec := o_rec s; o_t := o_t s; o_v := o_v s;
            o_time := o_time s; o_y := o_y s; o_out := o_out s |}.

  (** output_common.hpp:103-155 [hook_post_step] *)
  Definition out_post (s : ost) : ost :=
    if Nat.eqb (o_cnt s) 1 then
      let t := o_rec s in
      let v :=
        if Nat.eqb ord 1 then
          let t0 := o_t s 0 in let t1 := o_time s in
          o_v s 0%nat * ((t1 - t) / (t1 - t0)) + (t - t0) / (t1 - t0) * o_y s
        else
          let t0 := o_t s 0 in let t1 := o_t s 1 in let t2 := o_time s in
          let y0 := o_v s 0 in let y1 := o_v s 1 in let y2 := o_y s in
          y0 + (y1 - y0) / (t1 - t0) * (t - t0)
          + ((y2 - y1) / ((t2 - t1) * (t2 - t0)) - (y1 - y0) / ((t1 - t0) * (t2 - t0))) * (t - t0) * (t - t1) in
      {| o_cnt := o_cnt s; o_rec := o_rec s; o_t := o_t s; o_v := setn (o_v s) 0 v;
         o_time := o_time s; o_y := o_y s; o_out := o_out s ++ [(t, v)] |}
    else s.

  (** one step of length [dt] leading to value [y]; solver_common.hpp:324-351 *)
  Definition out_step (s : ost) (x : R * R) : ost :=
    let s := out_ante (fst x) s in
    out_post {| o_cnt := o_cnt s; o_rec := o_rec s; o_t := o_t s; o_v := o_v s;
                o_time := o_time s + fst x; o_y := snd x; o_out := o_out s |}.
  Definition out_run (y0 : R) (xs : list (R * R)) : ost := fold_left out_step xs (out_start 0 y0).
End VarOut.
