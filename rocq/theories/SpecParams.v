(** When two runs have the same parameters, as far as files can tell. *)
From Coq Require Import List NArith ZArith.
From Verif Require Import ModelIndex ModelParams.

Section Same.
  Context {V F : Type}.
  (** equal after rounding to the precision of files *)
  Variables (fl : V -> V) (flf : F -> F).
  Record same_advection (p q : params V F) : Prop :=
    { sa_opts : forall f, In f all_flags -> f <> o_div_3rd_dt -> isset (p_opts p) f = isset (p_opts q) f;
      sa_dt : fl (p_dt p) = fl (p_dt q);
      sa_dijk : map fl (p_dijk p) = map fl (p_dijk q);
      sa_var : p_var_dt p = p_var_dt q;
      sa_cou : p_var_dt p = true -> fl (p_max_courant p) = fl (p_max_courant q);
      sa_nit : p_n_iters p = p_n_iters q }.
  Definition same_prs (p q : params V F) : Prop := p_prs p = p_prs q /\ fl (p_prs_tol p) = fl (p_prs_tol q).
  (** the subgrid model and its parameters *)
  Record same_sgs (p q : params V F) : Prop :=
    { sg_kind : p_sgs p = p_sgs q;
      sg_all : p_sgs p <> iles -> p_sdiff p = p_sdiff q /\ fl (p_cdrag p) = fl (p_cdrag q);
      sg_dns : p_sgs p = dns -> fl (p_eta p) = fl (p_eta q);
      sg_smg : p_sgs p = smg \/ p_sgs p = smgani -> fl (p_smg_c p) = fl (p_smg_c q) /\ fl (p_c_m p) = fl (p_c_m q) }.
  Record same_bouss (p q : params V F) : Prop :=
    { sb_g : fl (p_g p) = fl (p_g q);
      sb_ref : fl (p_Tht_ref p) = fl (p_Tht_ref q);
      sb_hflux : fl (p_hflux p) = fl (p_hflux q);
      sb_tht : flf (p_tht_e p) = flf (p_tht_e q);
      sb_sgs : p_sgs p <> iles -> fl (p_prandtl p) = fl (p_prandtl q) /\ flf (p_mix_len p) = flf (p_mix_len q) }.
  (** all parameters of the layers a solver consists of *)
  Definition same_setup (s : solver) (p q : params V F) : Prop :=
    same_advection p q /\
    (s <> Mpdata -> p_rhs p = p_rhs q) /\
    (s <> Mpdata -> s <> Mpdata_rhs -> p_vab p = p_vab q) /\
    (s = Mpdata_rhs_vip_prs \/ s = Mpdata_rhs_vip_prs_sgs \/ s = Boussinesq -> same_prs p q) /\
    (s = Mpdata_rhs_vip_prs_sgs \/ s = Boussinesq -> same_sgs p q) /\
    (s = Boussinesq -> same_bouss p q).
End Same.
