(** Any boundary conditions: the functions of Fun1D.v with values outside the
    domain taken from inside. *)
From Coq Require Import ZArith List Bool Lia ZifyBool.
From Verif Require Import SpecIndex ModelIndex ProofsIndex ModelRun Lang ProofsLang Stencil ProofsStencil
  FormCommon Form1D Solver1D Macro ProofsMacro Foot1D Proofs1D ProofsThread1D ProofsValid ProofsValid1D
  ProofsExch1D ProofsRef1D Lattice ProofsLattice ProofsLattice1D SpecThreads SpecFields ProofsCyclic1D
  Fun1D ProofsFun1D ProofsFold1D ProofsPer1D.
Import ListNotations.
Local Open Scope Z_scope.

Definition clamp (a b i : Z) : Z := Z.max a (Z.min b i).
Definition dom_rs (r : run1) (i : Z) : Z :=
  src_s (r_lo r) (r_hi r) (r_bl r) (r_br r) (clamp (r_lo r - r_halo r) (r_hi r + r_halo r) i).
Definition dom_rv (r : run1) (ad : bool) (i : Z) : Z :=
  src_v (r_lo r) (r_hi r) (r_halo r) (r_bl r) (r_br r) ad (clamp (r_lo r - r_halo r) (r_hi r + r_halo r - 1) i).
Definition domX (r : run1) (ar : arith) (m : loc -> car ar) : fixed ar :=
  let z := fun _ : Z => acst ar (CQ 0 1) in
  {| xC := fun x => face m (dom_rv r false x); xG := fun x => gfac m (dom_rs r x); xN := z; xT := z |}.

Section Dom.
  Variable r : run1.
  Hypothesis RK : run_ok r.
  Notation lo := (r_lo r).
  Notation hi := (r_hi r).
  Notation o := (r_o r).

  Lemma rs_in i : lo <= dom_rs r i <= hi.
  Proof.
    pose proof (halo_le r RK) as [H1 H2]. unfold dom_rs, src_s, clamp.
    set (j := Z.max _ _). assert (lo - r_halo r <= j <= hi + r_halo r) by lia.
    destruct (j <? lo) eqn:C1; [destruct (r_bl r); lia|]. destruct (hi <? j) eqn:C2; [destruct (r_br r); lia|]. lia.
  Qed.
  Lemma rv_in i : lo <= dom_rv r false i < hi.
  Proof.
    pose proof (halo_le r RK) as [H1 H2]. unfold dom_rv, src_v, clamp.
    set (j := Z.max _ _). assert (lo - r_halo r <= j <= hi + r_halo r - 1) by lia.
    destruct (j <? lo) eqn:C1; [destruct (r_bl r); lia|]. destruct (hi - 1 <? j) eqn:C2; [destruct (r_br r); lia|]. lia.
  Qed.
  Lemma rs_id i : lo <= i <= hi -> dom_rs r i = i.
  Proof.
    pose proof (halo_le r RK) as [H1 H2]. intros H. unfold dom_rs, src_s, clamp.
    replace (Z.max _ _) with i by lia. replace (i <? lo) with false by lia. replace (hi <? i) with false by lia. reflexivity.
  Qed.
  Lemma rv_id ad i : lo <= i < hi -> dom_rv r ad i = i.
  Proof.
    pose proof (halo_le r RK) as [H1 H2]. intros H. unfold dom_rv, src_v, clamp.
    replace (Z.max _ _) with i by lia. replace (i <? lo) with false by lia. replace (hi - 1 <? i) with false by lia. reflexivity.
  Qed.

  Variable n : nat.
  Hypothesis Hn : (0 < n)%nat.
  Hypothesis Hs : Z.of_nat n <= hi - lo + 1.
  Variable ar : arith.
  Notation mem := (loc -> car ar).

  Theorem dom_fun nt (m m' : mem) : no_stale o (r_nit r) = true ->
    can_end loc_eq_dec ar n (program1 r n nt) m m' ->
    forall e i, (e < n_eqns (r_cfg r))%nat -> lo <= i <= hi ->
      cell m' e (newest r nt) i =
      stepsF ar o (r_sp r) (r_tp r) (dom_rs r) (dom_rv r) (domX r ar m)
        (r_nit r) (r_freq r) (r_scale r e) nt 0 (cell m e false) i.
  Proof.
    intros NS CE e i He Hi. pose proof (halo_le r RK) as [H1 H2].
    set (f := fun l : loc => match snd (fst l) with
      | NdtGC _ | NdttGC _ => acst ar (CQ 0 1) | _ => m (fst l, (comp DX (snd l), 0, 0)) end).
    assert (FL : flat ar f).
    { intros [ea a] x y z. unfold f. cbn [fst snd]. destruct a; reflexivity. }
    assert (SD : same_data lo hi (n_eqns (r_cfg r)) (nug o) m f) by (split; [|split]; reflexivity).
    rewrite (fold_run r n RK Hn Hs ar (dom_rs r) (dom_rv r)) with (m := m) (f := f) (nt := nt); auto.
    - apply stepsF_X.
      + intros x. reflexivity.
      + intros Hg x. cbn [anteF xG domX]. rewrite Hg. reflexivity.
      + intros x. cbn [anteF xN domX]. destruct (div3dt o || div3 o); reflexivity.
      + intros x. cbn [anteF xT domX]. destruct (div3dt o || div3 o); reflexivity.
      + intros x. reflexivity.
    - intros j Hj. unfold dom_rs, clamp. f_equal. lia.
    - intros ad j Hj. unfold dom_rv, clamp. f_equal. lia.
  Qed.
End Dom.
