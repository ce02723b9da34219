(** Instances of [arith]: exact rationals (computable, for examples and
    counterexamples) and reals.  The constants [CTiny] and [CEps] stand for
    [std::numeric_limits<real_t>::min()] and [::epsilon()]
    (formulae/mpdata/formulae_mpdata_common.hpp:66-103,
    formulae/common.hpp); here they are parameters. *)
From Coq Require Import ZArith QArith Qabs Qminmax Reals List.
From Verif Require Import Lang.

Definition qop (o : binop) (a b : Q) : Q :=
  Qred (match o with
        | Add => a + b | Sub => a - b | Mul => a * b | Div => a / b
        | Lang.Min => if Qle_bool a b then a else b
        | Lang.Max => if Qle_bool a b then b else a
        end)%Q.
Definition arithQ (eps tiny : Q) : arith := {|
  car := Q;
  acst := fun c => match c with CQ n d => Qred (n # d) | CEps => eps | CTiny => tiny end;
  aun := fun o a => Qred (match o with Neg => - a | Abs => Qabs a end)%Q;
  abin := qop;
  acmp := fun c a b => match c with
                       | Lang.Gt => negb (Qle_bool a b)
                       | Ne => negb (Qeq_bool a b)
                       end
|}.

Definition Rcst (eps tiny : R) (c : cst) : R :=
  match c with CQ n d => (IZR n / IZR (Zpos d))%R | CEps => eps | CTiny => tiny end.
Definition arithR (eps tiny : R) : arith := {|
  car := R;
  acst := Rcst eps tiny;
  aun := fun o a => (match o with Neg => - a | Abs => Rabs a end)%R;
  abin := fun o a b => (match o with
                        | Add => a + b | Sub => a - b | Mul => a * b | Div => a / b
                        | Lang.Min => Rmin a b | Lang.Max => Rmax a b
                        end)%R;
  acmp := fun c a b => match c with
                       | Lang.Gt => if Rlt_dec b a then true else false
                       | Ne => if Req_EM_T a b then false else true
                       end
|}.
