(** * C49, C70: the overloads with default options, and the states added one by one *)
From Coq Require Import Reals Lra Bool List Arith ZArith Lia Ring.
From Verif Require Import Scalar ScalarFacts RScal Tensor TensorFacts Spec MpsModel MpsFacts StateFacts MpoSpec MpoFacts CanonSpec CanonModel
  CanonSweep FormModel FormSpec SimplifySpec SimplifyFacts SimplifyStep MinimizerModel MinLive MinimizeSpec MinLocal MinStep MinSweep MinLoop
  SvdExist EigsExist RealInst Properties_Minimize.
From Verif Require DmrgModel Properties_Dmrg.
Import ListNotations.
Local Open Scope K_scope.

Section Default.
Context {RS : RScal}.
Variable svd : tensor -> tensor * list R * tensor.
Variable flag : R.
Hypothesis Hsvd : svd_contract svd.
Variable eigs : (tensor -> result tensor) -> nat -> nat -> tensor -> result (list K * tensor * bool).
Hypothesis Heigs : eigs_contract eigs.
Variables (H : mpo) (psi : mps) (ds : list nat).
Hypothesis HH : hamiltonian H ds.
Hypothesis Ho : open_mps psi.
Hypothesis Hd : pdims psi = ds.
Hypothesis Hz : flag <> 0%R \/ exists is, in_range ds is /\ amp psi is <> 0.

Lemma default_valid : valid_minimize flag eigs H psi ds default_options.
Proof. split; [exact HH|]. split; [exact Ho|]. split; [exact Hd|]. split; [left; reflexivity|]. split; [exact Hz|left; reflexivity]. Qed.

Lemma default_keeps : keeps_all flag default_options.
Proof. split; [cbn; lia|left; reflexivity]. Qed.

(** minimize(H, psi) without options: the one-site algorithm.  It returns a normalized state with the returned energy; no bond
    dimension grows, the energy is not below the spectrum, no other tensor at the last site of the sweep is better, and if nothing
    is truncated it is not above the energy of the initial state. *)
Theorem C49_default : eigs_converges eigs -> exists psi' E, minimize_default svd flag eigs H psi = Ok (psi', E) /\
  open_mps psi' /\ pdims psi' = ds /\ weight ds (amp psi') = 1%R /\ energy H psi' = E /\
  (forall j, (dim (site psi' j) 0 <= dim (site psi j) 0)%nat) /\
  (forall e, lower_bound H ds e -> (e <= E)%R) /\
  (exists k, (k = 0 \/ k = length psi - 1)%nat /\ canonical_at k psi' /\
     forall phi, open_mps phi -> pdims phi = ds -> differs_at psi' phi k -> (E * weight ds (amp phi) <= energy H phi)%R) /\
  (no_truncation flag -> (E * weight ds (amp psi) <= energy H psi)%R).
Proof.
  intros Hc. pose proof default_valid as HV. assert (Hs : (0 < o_sweeps default_options)%Z) by (cbn; lia).
  destruct (C49_returns svd flag Hsvd eigs Heigs H psi ds default_options HV) as (psi' & E & Er). exists psi', E. split; [exact Er|].
  pose proof (C49_converges svd flag Hsvd eigs Heigs H psi ds default_options psi' E HV Hs Hc Er) as Hne.
  destruct (C49_result svd flag Hsvd eigs Heigs H psi ds default_options psi' E HV Hs Er Hne) as (O1 & D1 & _ & _ & Hb & _).
  destruct (C49_energy svd flag Hsvd eigs Heigs H psi ds default_options psi' E HV Hs Er Hne default_keeps) as (W1 & E1).
  split; [exact O1|]. split; [exact D1|]. split; [exact W1|]. split; [exact E1|]. split; [apply Hb; reflexivity|].
  split; [exact (C49_bound svd flag Hsvd eigs Heigs H psi ds default_options psi' E HV Hs Er Hne)|].
  split; [|exact (C49_not_worse svd flag Hsvd eigs Heigs H psi ds default_options psi' E HV Hs Er Hne default_keeps)].
  rewrite <- E1. exact (C49_optimal_one svd flag Hsvd eigs Heigs H psi ds default_options psi' E HV Hs Er Hne eq_refl).
Qed.

(** It sweeps until the energy changes by less than 10^-10, but at most 32 times. *)
Theorem C49_default_sweeps : let run s := minimize svd flag eigs H psi (mkOpt s (1 / 10 ^ 10) (1 / 10 ^ 11) 1 0 false) in
  minimize_default svd flag eigs H psi = run 32%Z /\
  forall s p E p' E', (0 < s < 32)%Z -> run s = Ok (p, E) -> run (s + 1)%Z = Ok (p', E') -> p' <> [] ->
    (Rabs (E' - E) < 1 / 10 ^ 10)%R -> minimize_default svd flag eigs H psi = Ok (p', E').
Proof.
  intros run. split; [reflexivity|]. intros s p E p' E' Hs H1 H2 Hne Hlt.
  exact (C49_stops svd flag Hsvd eigs Heigs H psi ds default_options s 32 p E p' E' default_valid default_keeps ltac:(lia) ltac:(lia) H1 H2 Hne Hlt).
Qed.
End Default.

(** A case: the Hamiltonian of C49_case, from |00>. *)
Theorem C49_default_case : exists (svd : @tensor (@rs_scalar RR) -> _) eigs, svd_contract svd /\ eigs_contract eigs /\ eigs_converges eigs /\
  exists psi' E, minimize_default svd DBL_EPSILON eigs bell start00 = Ok (psi', E) /\ @weight RR [2; 2]%nat (amp psi') = 1%R.
Proof.
  destruct (C49_case) as (svd & eigs & H1 & H2 & H3 & (V1 & V2 & V3 & _ & V5 & _) & _). exists svd, eigs. split; [exact H1|]. split; [exact H2|]. split; [exact H3|].
  destruct (C49_default svd DBL_EPSILON H1 eigs H2 bell start00 [2; 2]%nat V1 V2 V3 V5 H3) as (p & E & Er & _ & _ & W1 & _). exists p, E. split; [exact Er|exact W1].
Qed.

(** Found: a state given to orthogonal_to() changes nothing in the one-site algorithm of DMRG: what a call returns is what it
    returns without that state. *)
Theorem C70_orthogonal_to_refuted {RS : RScal} svd flag eigs arpack (D : DmrgModel.dmrg) phi psi E0 r : DmrgModel.d_P0 D = [] ->
  DmrgModel.dmrg_minimize svd flag eigs arpack (DmrgModel.orthogonal_to D phi) psi 0 E0 = Ok r ->
  DmrgModel.d_P0 (DmrgModel.orthogonal_to D phi) = [phi] /\ DmrgModel.dmrg_minimize svd flag eigs arpack D psi 0 E0 = Ok r.
Proof.
  intros H0 Hr. apply (Properties_Dmrg.C70_orthogonal_refuted svd flag eigs arpack) in Hr. destruct D as [h s t v g n q P0]. cbn in H0. subst P0. split; [reflexivity|exact Hr].
Qed.
