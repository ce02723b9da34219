(** Model of the parameters stored in const.h5 (libmpdata++/output/hdf5.hpp:230-232, 621-787):
    groups of attributes, chosen by the family of the solver. *)
From Coq Require Import List Bool String NArith ZArith.
From Verif Require Import ModelIndex.
Import ListNotations.
Local Open Scope string_scope.
Local Open Scope list_scope.

(** mpdata_rhs.hpp:19-25, detail/mpdata_rhs_vip_common.hpp:16-21, mpdata_rhs_vip_prs.hpp:17-23,
    mpdata_rhs_vip_prs_sgs.hpp:20-26, detail/mpdata_rhs_vip_prs_sgs_common.hpp:20-25 *)
Inductive rhs_scheme := euler_a | euler_b | trapez | mixed.
Inductive vip_vab := noab | expl | impl.
Inductive prs_scheme := mr | cr | gcrk | pc.
Inductive sgs_scheme := iles | dns | smg | smgani.
Inductive stress_diff := normal | pade | compact.
(** the maps from these to names: mpdata_rhs.hpp:27-32, mpdata_rhs_vip_common.hpp:23-27,
    mpdata_rhs_vip_prs.hpp:25-30, mpdata_rhs_vip_prs_sgs.hpp:28-33, mpdata_rhs_vip_prs_sgs_common.hpp:27-31 *)
Definition scheme2string s := match s with euler_a => "euler_a" | euler_b => "euler_b" | trapez => "trapez" | mixed => "mixed" end.
Definition vab2string v := match v with noab => "noab" | expl => "expl" | impl => "impl" end.
Definition prs2string p := match p with mr => "mr" | cr => "cr" | gcrk => "gcrk" | pc => "pc" end.
Definition sgs2string s := match s with iles => "iles" | dns => "dns" | smg => "smg" | smgani => "smgani" end.
Definition sdiff2string s := match s with normal => "normal" | pade => "pade" | compact => "compact" end.

(** members of the solvers that are recorded; [V]: numbers, [F]: fields *)
Record params (V F : Type) := mkparams
  { p_opts : opts_t; p_dt : V; p_dijk : list V; p_var_dt : bool; p_max_courant : V; p_n_iters : Z;
    p_rhs : rhs_scheme; p_vab : vip_vab; p_prs : prs_scheme; p_prs_tol : V;
    p_sgs : sgs_scheme; p_sdiff : stress_diff; p_cdrag : V; p_eta : V; p_smg_c : V; p_c_m : V;
    p_g : V; p_Tht_ref : V; p_hflux : V; p_tht_e : F; p_prandtl : V; p_mix_len : F }.
Arguments p_opts {V F}. Arguments p_dt {V F}. Arguments p_dijk {V F}. Arguments p_var_dt {V F}. Arguments p_max_courant {V F}.
Arguments p_n_iters {V F}. Arguments p_rhs {V F}. Arguments p_vab {V F}. Arguments p_prs {V F}. Arguments p_prs_tol {V F}.
Arguments p_sgs {V F}. Arguments p_sdiff {V F}. Arguments p_cdrag {V F}. Arguments p_eta {V F}. Arguments p_smg_c {V F}.
Arguments p_c_m {V F}. Arguments p_g {V F}. Arguments p_Tht_ref {V F}. Arguments p_hflux {V F}. Arguments p_tht_e {V F}.
Arguments p_prandtl {V F}. Arguments p_mix_len {V F}. Arguments mkparams {V F}.

(** what is stored: [fl] rounds to the precision of files (hdf5.hpp:56) *)
Inductive stored (V F : Type) := Str (s : string) | Names (l : list opts_t) | Num (v : V) | Flag (b : bool) | Int (z : Z) | Field (f : F).
Arguments Str {V F}. Arguments Names {V F}. Arguments Num {V F}. Arguments Flag {V F}. Arguments Int {V F}. Arguments Field {V F}.
(** a step of writing a file *)
Inductive put (V F : Type) := Group (g : string) | Attr (g name : string) (v : stored V F).
Arguments Group {V F}. Arguments Attr {V F}.

(** families of solvers: mpdata.hpp:39, 53; mpdata_rhs.hpp:48; mpdata_rhs_vip.hpp:33, 92, 202;
    mpdata_rhs_vip_prs.hpp:52-94; mpdata_rhs_vip_prs_sgs.hpp:43-90; boussinesq.hpp:34-36, 49-51 *)
Inductive tag := Tmpdata | Trhs | Tvip | Tprs | Tsgs | Tdns | Tsmg | Tsmgani | Tbouss | Tbouss_sgs.
Inductive solver := Mpdata | Mpdata_rhs | Mpdata_rhs_vip | Mpdata_rhs_vip_prs | Mpdata_rhs_vip_prs_sgs | Boussinesq.
Definition family (s : solver) (m : sgs_scheme) : tag :=
  match s with
  | Mpdata => Tmpdata | Mpdata_rhs => Trhs | Mpdata_rhs_vip => Tvip | Mpdata_rhs_vip_prs => Tprs
  | Mpdata_rhs_vip_prs_sgs => match m with iles => Tprs | dns => Tdns | smg => Tsmg | smgani => Tsmgani end
  | Boussinesq => match m with iles => Tbouss | _ => Tbouss_sgs end
  end.

Section Record.
  Context {V F : Type}.
  Variables (fl : V -> V) (flf : F -> F).
  Variable p : params V F.
  (** hdf5.hpp:624-656 *)
  Definition rec_mpdata : list (put V F) :=
    [Group "advection"; Attr "advection" "opts" (Names (opts_string (p_opts p))); Attr "advection" "dt" (Num (fl (p_dt p)))] ++
    map (fun nv => Attr "advection" (fst nv) (Num (fl (snd nv)))) (combine ["di"; "dj"; "dk"] (p_dijk p)) ++
    [Attr "advection" "var_dt" (Flag (p_var_dt p))] ++
    (if p_var_dt p then [Attr "advection" "max_courant" (Num (fl (p_max_courant p)))] else []) ++
    [Attr "advection" "n_iters" (Int (p_n_iters p))].
  (** 659-668, 671-680, 683-697 *)
  Definition rec_rhs := rec_mpdata ++ [Group "rhs"; Attr "rhs" "rhs_scheme" (Str (scheme2string (p_rhs p)))].
  Definition rec_vip := rec_rhs ++ [Group "vip"; Attr "vip" "vip_abs" (Str (vab2string (p_vab p)))].
  Definition rec_prs := rec_vip ++ [Group "prs"; Attr "prs" "prs_scheme" (Str (prs2string (p_prs p))); Attr "prs" "prs_tol" (Num (fl (p_prs_tol p)))].
  (** 700-719, 722-730, 733-742, 745-748 *)
  Definition rec_sgs := rec_prs ++ [Group "sgs"; Attr "sgs" "sgs_scheme" (Str (sgs2string (p_sgs p)));
    Attr "sgs" "stress_diff" (Str (sdiff2string (p_sdiff p))); Attr "sgs" "cdrag" (Num (fl (p_cdrag p)))].
  Definition rec_dns := rec_sgs ++ [Attr "sgs" "eta" (Num (fl (p_eta p)))].
  Definition rec_smg := rec_sgs ++ [Attr "sgs" "smg_c" (Num (fl (p_smg_c p))); Attr "sgs" "c_m" (Num (fl (p_c_m p)))].
  Definition rec_smgani := rec_smg.
  (** 751-769 *)
  Definition rec_bouss :=
    match p_sgs p with iles => rec_prs | dns => rec_prs | smg => rec_smg | smgani => rec_smgani end ++
    [Group "boussinesq"; Attr "boussinesq" "g" (Num (fl (p_g p))); Attr "boussinesq" "Tht_ref" (Num (fl (p_Tht_ref p)));
     Attr "boussinesq" "hflux_const" (Num (fl (p_hflux p))); Attr "boussinesq" "tht_e" (Field (flf (p_tht_e p)))].
  (** 772-785 *)
  Definition rec_bouss_sgs := rec_bouss ++ [Attr "boussinesq" "prandtl_num" (Num (fl (p_prandtl p))); Attr "boussinesq" "mix_len" (Field (flf (p_mix_len p)))].
  Definition record_params (t : tag) : list (put V F) :=
    match t with
    | Tmpdata => rec_mpdata | Trhs => rec_rhs | Tvip => rec_vip | Tprs => rec_prs | Tsgs => rec_sgs | Tdns => rec_dns
    | Tsmg => rec_smg | Tsmgani => rec_smgani | Tbouss => rec_bouss | Tbouss_sgs => rec_bouss_sgs
    end.
  (** hdf5.hpp:232 *)
  Definition recorded (s : solver) : list (put V F) := record_params (family s (p_sgs p)).
End Record.

(** What a file holds.  The library throws if a group or an attribute is created
    twice or the group of an attribute is missing ([None]). *)
Definition file (V F : Type) := (list string * list (string * string * stored V F))%type.
Definition key_eqb (a b : string * string) : bool := String.eqb (fst a) (fst b) && String.eqb (snd a) (snd b).
Definition write {V F} (x : put V F) (f : file V F) : option (file V F) :=
  match x with
  | Group g => if existsb (String.eqb g) (fst f) then None else Some (g :: fst f, snd f)
  | Attr g n v => if existsb (String.eqb g) (fst f) && negb (existsb (fun a => key_eqb (g, n) (fst a)) (snd f))
      then Some (fst f, (g, n, v) :: snd f) else None
  end.
Definition const_file {V F} (l : list (put V F)) : option (file V F) :=
  fold_left (fun f x => match f with Some f => write x f | None => None end) l (Some ([], [])).
Definition attr {V F} (g n : string) (f : file V F) : option (stored V F) :=
  option_map snd (find (fun a => key_eqb (g, n) (fst a)) (snd f)).
