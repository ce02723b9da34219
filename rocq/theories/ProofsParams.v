(** What const.h5 tells about a run. *)
From Coq Require Import List Bool String NArith ZArith Lia.
From Verif Require Import ModelIndex ProofsIndex ModelParams SpecParams.
Import ListNotations.
Local Open Scope string_scope.

Section Params.
  Context {V F : Type}.
  Variables (fl : V -> V) (flf : F -> F).
  Definition fileof (s : solver) (p : params V F) : option (file V F) := const_file (recorded fl flf p s).
  Definition at_ (s : solver) (p : params V F) (g n : string) : option (stored V F) :=
    match fileof s p with Some f => attr g n f | None => None end.
  Definition dims (p : params V F) : Prop := (1 <= List.length (p_dijk p) <= 3)%nat.

  Ltac cases s p D :=
    destruct p as [o dt dijk vd mc ni rh va pr pt sg sd cd et sc cm g tr hf te pn ml]; unfold dims in D; cbn [p_dijk p_sgs p_var_dt] in *;
    destruct dijk as [|x1 [|x2 [|x3 [|]]]]; cbn [List.length] in D; try lia; destruct vd, sg, s.
  Ltac go := cbv -[opts_string scheme2string vab2string prs2string sgs2string sdiff2string]; repeat (apply conj); reflexivity.
  Lemma file_ok s p : dims p -> fileof s p <> None.
  Proof. intros D. cases s p D; cbv -[opts_string scheme2string vab2string prs2string sgs2string sdiff2string]; discriminate. Qed.
  Lemma at_adv s p : dims p ->
    at_ s p "advection" "opts" = Some (Names (opts_string (p_opts p))) /\
    at_ s p "advection" "dt" = Some (Num (fl (p_dt p))) /\
    at_ s p "advection" "di" = option_map (fun v => Num (fl v)) (nth_error (p_dijk p) 0) /\
    at_ s p "advection" "dj" = option_map (fun v => Num (fl v)) (nth_error (p_dijk p) 1) /\
    at_ s p "advection" "dk" = option_map (fun v => Num (fl v)) (nth_error (p_dijk p) 2) /\
    at_ s p "advection" "var_dt" = Some (Flag (p_var_dt p)) /\
    at_ s p "advection" "max_courant" = (if p_var_dt p then Some (Num (fl (p_max_courant p))) else None) /\
    at_ s p "advection" "n_iters" = Some (Int (p_n_iters p)).
  Proof. intros D. cases s p D; go. Qed.
  Lemma at_rhs s p : dims p ->
    at_ s p "rhs" "rhs_scheme" = (match s with Mpdata => None | _ => Some (Str (scheme2string (p_rhs p))) end) /\
    at_ s p "vip" "vip_abs" = (match s with Mpdata | Mpdata_rhs => None | _ => Some (Str (vab2string (p_vab p))) end) /\
    at_ s p "prs" "prs_scheme" = (match s with Mpdata | Mpdata_rhs | Mpdata_rhs_vip => None | _ => Some (Str (prs2string (p_prs p))) end) /\
    at_ s p "prs" "prs_tol" = (match s with Mpdata | Mpdata_rhs | Mpdata_rhs_vip => None | _ => Some (Num (fl (p_prs_tol p))) end).
  Proof. intros D. cases s p D; go. Qed.
  Definition with_sgs (s : solver) (p : params V F) : bool :=
    match s with Mpdata_rhs_vip_prs_sgs => match p_sgs p with iles => false | _ => true end
    | Boussinesq => match p_sgs p with iles | dns => false | _ => true end | _ => false end.
  Lemma at_sgs s p : dims p ->
    at_ s p "sgs" "sgs_scheme" = (if with_sgs s p then Some (Str (sgs2string (p_sgs p))) else None) /\
    at_ s p "sgs" "stress_diff" = (if with_sgs s p then Some (Str (sdiff2string (p_sdiff p))) else None) /\
    at_ s p "sgs" "cdrag" = (if with_sgs s p then Some (Num (fl (p_cdrag p))) else None) /\
    at_ s p "sgs" "eta" = (if with_sgs s p then match p_sgs p with dns => Some (Num (fl (p_eta p))) | _ => None end else None) /\
    at_ s p "sgs" "smg_c" = (if with_sgs s p then match p_sgs p with dns => None | _ => Some (Num (fl (p_smg_c p))) end else None) /\
    at_ s p "sgs" "c_m" = (if with_sgs s p then match p_sgs p with dns => None | _ => Some (Num (fl (p_c_m p))) end else None).
  Proof. intros D. cases s p D; go. Qed.
  Lemma at_bouss s p : dims p -> s = Boussinesq ->
    at_ s p "boussinesq" "g" = Some (Num (fl (p_g p))) /\
    at_ s p "boussinesq" "Tht_ref" = Some (Num (fl (p_Tht_ref p))) /\
    at_ s p "boussinesq" "hflux_const" = Some (Num (fl (p_hflux p))) /\
    at_ s p "boussinesq" "tht_e" = Some (Field (flf (p_tht_e p))) /\
    at_ s p "boussinesq" "prandtl_num" = (match p_sgs p with iles => None | _ => Some (Num (fl (p_prandtl p))) end) /\
    at_ s p "boussinesq" "mix_len" = (match p_sgs p with iles => None | _ => Some (Field (flf (p_mix_len p))) end).
  Proof. intros D E. cases s p D; try discriminate E; go. Qed.

  Lemma setup_found s p q : dims p -> dims q -> (s = Boussinesq -> p_sgs p <> dns) ->
    (forall g n, at_ s p g n = at_ s q g n) -> same_setup fl flf s p q.
  Proof.
    intros Dp Dq NB E.
    destruct (at_adv s p Dp) as (A1 & A2 & A3 & A4 & A5 & A6 & A7 & A8). destruct (at_adv s q Dq) as (B1 & B2 & B3 & B4 & B5 & B6 & B7 & B8).
    rewrite E in A1, A2, A3, A4, A5, A6, A7, A8. rewrite A1 in B1. rewrite A2 in B2. rewrite A3 in B3. rewrite A4 in B4. rewrite A5 in B5. rewrite A6 in B6. rewrite A7 in B7. rewrite A8 in B8.
    clear A1 A2 A3 A4 A5 A6 A7 A8.
    destruct (at_rhs s p Dp) as (R1 & R2 & R3 & R4). destruct (at_rhs s q Dq) as (Q1 & Q2 & Q3 & Q4).
    rewrite E in R1, R2, R3, R4. rewrite R1 in Q1. rewrite R2 in Q2. rewrite R3 in Q3. rewrite R4 in Q4. clear R1 R2 R3 R4.
    destruct (at_sgs s p Dp) as (G1 & G2 & G3 & G4 & G5 & G6). destruct (at_sgs s q Dq) as (H1 & H2 & H3 & H4 & H5 & H6).
    rewrite E in G1, G2, G3, G4, G5, G6. rewrite G1 in H1. rewrite G2 in H2. rewrite G3 in H3. rewrite G4 in H4. rewrite G5 in H5. rewrite G6 in H6. clear G1 G2 G3 G4 G5 G6.
    assert (BB : s = Boussinesq ->
      Some (Num (fl (p_g p))) = Some (Num (fl (p_g q))) :> option (stored V F) /\ Some (Num (fl (p_Tht_ref p))) = Some (Num (fl (p_Tht_ref q))) :> option (stored V F) /\
      Some (Num (fl (p_hflux p))) = Some (Num (fl (p_hflux q))) :> option (stored V F) /\ Some (Field (flf (p_tht_e p))) = Some (Field (flf (p_tht_e q))) :> option (stored V F) /\
      (match p_sgs p with iles => None | _ => Some (Num (fl (p_prandtl p))) end) = (match p_sgs q with iles => None | _ => Some (Num (fl (p_prandtl q))) end) :> option (stored V F) /\
      (match p_sgs p with iles => None | _ => Some (Field (flf (p_mix_len p))) end) = (match p_sgs q with iles => None | _ => Some (Field (flf (p_mix_len q))) end) :> option (stored V F)).
    { intros S. destruct (at_bouss _ p Dp S) as (X1 & X2 & X3 & X4 & X5 & X6). destruct (at_bouss _ q Dq S) as (Y1 & Y2 & Y3 & Y4 & Y5 & Y6).
      rewrite E in X1, X2, X3, X4, X5, X6. rewrite <- X1, <- X2, <- X3, <- X4, <- X5, <- X6. repeat (apply conj); assumption. }
    clear E. unfold dims in *. injection B1 as B1. injection B2 as B2. injection B6 as B6. injection B8 as B8.
    split; [|split; [|split; [|split; [|split]]]].
    - clear Q1 Q2 Q3 Q4 H1 H2 H3 H4 H5 H6 BB NB. constructor.
      + intros f Hf Hd. apply (opts_string_determines _ _ f Hf Hd). exact B1.
      + exact B2.
      + destruct (p_dijk p) as [|x1 [|x2 [|x3 [|]]]], (p_dijk q) as [|y1 [|y2 [|y3 [|]]]]; cbn [List.length nth_error option_map map] in *; try lia; try discriminate;
          repeat match goal with H : Some _ = Some _ |- _ => injection H as H end; rewrite ?B3, ?B4, ?B5; reflexivity.
      + exact B6.
      + intros W. rewrite W in B6, B7. rewrite <- B6 in B7. injection B7 as B7. exact B7.
      + exact B8.
    - intros N. clear - Q1 N. destruct s; try contradiction; destruct (p_rhs p), (p_rhs q); try reflexivity; cbn in Q1; discriminate Q1.
    - intros N N2. clear - Q2 N N2. destruct s; try contradiction; destruct (p_vab p), (p_vab q); try reflexivity; cbn in Q2; discriminate Q2.
    - intros S. clear - Q3 Q4 S. split.
      + destruct s; try (destruct S as [S|[S|S]]; discriminate S); destruct (p_prs p), (p_prs q); try reflexivity; cbn in Q3; discriminate Q3.
      + destruct s; try (destruct S as [S|[S|S]]; discriminate S); injection Q4 as Q4; exact Q4.
    - intros S. clear - H1 H2 H3 H4 H5 H6 BB NB S.
      assert (K : p_sgs p = p_sgs q /\ (p_sgs p <> iles -> with_sgs s p = true /\ with_sgs s q = true)).
      { destruct S as [->| ->]; unfold with_sgs in *.
        - destruct (p_sgs p), (p_sgs q); cbn in H1; try discriminate H1; repeat split; congruence.
        - specialize (NB eq_refl). destruct (BB eq_refl) as (_ & _ & _ & _ & X & _). clear BB.
          destruct (p_sgs p), (p_sgs q); cbn in H1; try discriminate H1; try discriminate X; try contradiction; repeat split; congruence. }
      destruct K as [K KW]. clear BB NB H1. constructor.
      + exact K.
      + intros N. destruct (KW N) as [W1 W2]. rewrite W1, W2 in *. injection H3 as H3. split; [|exact H3].
        clear - H2. destruct (p_sdiff p), (p_sdiff q); try reflexivity; cbn in H2; discriminate H2.
      + intros N. destruct KW as [W1 W2]; [congruence|]. rewrite W1, W2 in *. rewrite <- K, N in H4. injection H4 as H4. exact H4.
      + intros N. destruct KW as [W1 W2]; [destruct N; congruence|]. rewrite W1, W2 in *. rewrite <- K in H5, H6. destruct N as [N|N]; rewrite N in *; injection H5 as H5; injection H6 as H6; split; assumption.
    - intros S. destruct (BB S) as (X1 & X2 & X3 & X4 & X5 & X6). clear - X1 X2 X3 X4 X5 X6.
      injection X1 as X1. injection X2 as X2. injection X3 as X3. injection X4 as X4. constructor; try assumption.
      intros N. destruct (p_sgs p); try contradiction; destruct (p_sgs q); try discriminate X5; injection X5 as X5; injection X6 as X6; split; assumption.
  Qed.
  Lemma setup_from_files s p q f f' : dims p -> dims q -> (s = Boussinesq -> p_sgs p <> dns) ->
    const_file (recorded fl flf p s) = Some f -> const_file (recorded fl flf q s) = Some f' ->
    (forall g n, attr g n f = attr g n f') -> same_setup fl flf s p q.
  Proof.
    intros Dp Dq NB Ef Ef' H. apply setup_found; auto. intros g n. unfold at_, fileof. rewrite Ef, Ef'. apply H.
  Qed.
  (** a change of viscosity, drag and stresses *)
  Definition other_dns (p : params V F) (eta cdrag : V) (sd : stress_diff) : params V F :=
    mkparams (p_opts p) (p_dt p) (p_dijk p) (p_var_dt p) (p_max_courant p) (p_n_iters p) (p_rhs p) (p_vab p) (p_prs p) (p_prs_tol p)
      (p_sgs p) sd cdrag eta (p_smg_c p) (p_c_m p) (p_g p) (p_Tht_ref p) (p_hflux p) (p_tht_e p) (p_prandtl p) (p_mix_len p).
  Lemma dns_lost p eta cdrag sd : p_sgs p = dns -> fileof Boussinesq (other_dns p eta cdrag sd) = fileof Boussinesq p.
  Proof. intros S. unfold fileof, recorded. cbn [p_sgs other_dns]. rewrite S. cbn [family record_params]. unfold rec_bouss_sgs, rec_bouss. cbn [p_sgs other_dns]. rewrite S. reflexivity. Qed.
End Params.

(** numbers in thousandths *)
Definition some_run (sg : sgs_scheme) : params Z Z :=
  (mkparams (N.lor o_iga o_fct) 750 [50000; 50000; 50000] false 500 2 trapez impl cr 10 sg compact 100 5 165 85 9810 300000 10 1 420 2)%Z.
