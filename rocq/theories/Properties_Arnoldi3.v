(** * ArnoldiSolver with time step zero: the ground state (C69) *)
From Coq Require Import Reals Lra Bool List Arith ZArith Lia Ring Classical ClassicalEpsilon.
From Verif Require Import Scalar ScalarFacts RScal RealInst Tensor TensorFacts Spec MpsModel MpsFacts MpoSpec CanonSpec CanonModel CanonSweep SweepModel FormModel FormSpec LFormFacts SimplifySpec SimplifyModel SimplifyFacts SimplifyLoop
  Properties_Canon Properties_Simplify SvdExist MinimizerModel MinimizeSpec EigsExist TrotterExp OpExp ArnoldiSpec ArnoldiModel ArnoldiFacts ArnoldiProj ArnoldiStep Properties_Arnoldi Properties_Arnoldi2.
Import ListNotations.
Local Open Scope K_scope.

Section Ground.
Context {RS : RScal}.
Add Ring Kring : k_ring.

(** What linalg::eig(A, &U) is assumed to do for a Hermitian matrix (external library): it returns n numbers and a matrix whose
    columns are eigenvectors for these numbers; the smallest eigenvalue of A is one of the numbers. *)
Definition eig_contract (eig : tensor -> list K * tensor) : Prop :=
  forall n A, (0 < n)%nat -> is_matrix A n n -> hermitian n (mat A) ->
    exists E U, eig A = (E, U) /\ length E = n /\ is_matrix U n n /\
      (forall j, (j < n)%nat -> (exists i, (i < n)%nat /\ mat U i j <> 0) /\
         forall i, (i < n)%nat -> sum n (fun k => mat A i k * mat U k j) = nth j E 0 * mat U i j) /\
      forall e p, MinimizeSpec.ground_state n (mat A) e p -> In (rinj e) E.

Lemma hermitian_herm n M : hermitian n M -> herm n M.
Proof. intros HM i j Hi Hj. rewrite (HM j i Hj Hi). reflexivity. Qed.
Lemma eigen_qf n M l q : (forall i, (i < n)%nat -> sum n (fun k => M i k * q k) = l * q i) -> qf n M q = l * rinj (vsq n q).
Proof.
  intros HE. rewrite qf_mv, vsq_spec, sum_mul_l. apply sum_ext. intros i Hi. unfold mv. rewrite (HE i Hi). ring.
Qed.
(** An eigenvalue of a Hermitian matrix is real. *)
Lemma eigen_real n M l q : hermitian n M -> vsq n q <> 0%R -> (forall i, (i < n)%nat -> sum n (fun k => M i k * q k) = l * q i) ->
  l = rinj (kre l) /\ kre (qf n M q) = (kre l * vsq n q)%R.
Proof.
  intros HM Hq HE. pose proof (eigen_qf n M l q HE) as E. pose proof (qf_real n M q (hermitian_herm n M HM)) as R1.
  assert (El : l = rinj (kre (qf n M q) * / vsq n q)%R).
  { rewrite rinj_mul, R1, E. transitivity (l * (rinj (vsq n q) * rinj (/ vsq n q)%R)); [rewrite rinj_inv by exact Hq|]; ring. }
  assert (Ek : kre l = (kre (qf n M q) * / vsq n q)%R) by (rewrite El at 1; apply kre_rinj).
  split; [rewrite Ek; exact El|]. rewrite Ek. field. exact Hq.
Qed.
Lemma vsq_zero n q : vsq n q = 0%R -> forall i, (i < n)%nat -> q i = 0.
Proof.
  intros E i Hi. apply kmod2_zero. refine (rsum_zero_inv n (fun i => kmod2 (q i)) _ E i Hi). intros; apply kmod2_nonneg.
Qed.

(** It can be met. *)
Theorem eig_contract_satisfiable : exists eig, eig_contract eig.
Proof.
  set (s := fun A : tensor => epsilon (inhabits (0%R, fun _ => 0)) (fun ep => MinimizeSpec.ground_state (dim A 0) (mat A) (fst ep) (snd ep))).
  exists (fun A => (repeat (rinj (fst (s A))) (dim A 0), mk [dim A 0; dim A 0] (fun x => snd (s A) (nth 0 x 0%nat)))). intros n A Hn (HA1 & HA2) HM.
  assert (Hd : dim A 0 = n) by (unfold dim; rewrite HA1; reflexivity).
  assert (Hs : MinimizeSpec.ground_state n (mat A) (fst (s A)) (snd (s A))).
  { unfold s. rewrite Hd. apply (epsilon_spec (inhabits (0%R, fun _ => 0)) (fun ep => MinimizeSpec.ground_state n (mat A) (fst ep) (snd ep))). destruct (lowest_exists n (mat A) Hn HM) as (e & p & G). exists (e, p). exact G. }
  rewrite Hd. clearbody s. destruct (s A) as (e & p). cbn [fst snd] in *. destruct Hs as (G1 & G2 & G3).
  eexists _, _. split; [reflexivity|]. split; [apply repeat_length|]. split; [split; [reflexivity|apply wf_mk]|].
  assert (Hg : forall i j, (i < n)%nat -> (j < n)%nat -> mat (mk [n; n] (fun x => p (nth 0 x 0%nat))) i j = p i) by (intros i j Hi Hj; unfold mat; rewrite get_mk by (apply in_range_2; assumption); reflexivity).
  assert (He : forall j, (j < n)%nat -> nth j (repeat (rinj e) n) 0 = rinj e).
  { intros j Hj. rewrite (nth_indep _ 0 (rinj e)) by (rewrite repeat_length; exact Hj). apply nth_repeat. }
  split.
  - intros j Hj. split.
    + destruct (classic (exists i, (i < n)%nat /\ p i <> 0)) as [(i & Hi & P)|P]; [exists i; split; [exact Hi|rewrite Hg by assumption; exact P]|]. exfalso. rewrite rsum_zero in G1; [lra|].
      intros i Hi. destruct (keqb_spec (p i) 0) as [Z|Z]; [rewrite Z; apply kmod2_0|destruct P; exists i; auto].
    + intros i Hi. rewrite He, Hg by assumption. rewrite <- (G2 i Hi). apply sum_ext. intros k Hk. rewrite Hg by assumption. reflexivity.
  - intros e' p' (G1' & G2' & G3'). assert (e' = e) as ->.
    { assert (Q : forall a q, vsq n q = 1%R -> (forall i, (i < n)%nat -> sum n (fun j => mat A i j * q j) = rinj a * q i) -> kre (qf n (mat A) q) = a).
      { intros a q Q1 Q2. destruct (eigen_real n (mat A) (rinj a) q HM ltac:(rewrite Q1; lra) Q2) as (_ & ->). rewrite kre_rinj, Q1. ring. }
      pose proof (G3 p') as A1. pose proof (G3' p) as A2. fold (qf n (mat A) p') in A1. fold (qf n (mat A) p) in A2. rewrite (Q e' p' G1' G2'), G1' in A1. rewrite (Q e p G1 G2), G1 in A2. lra. }
    destruct n as [|m]; [lia|]. left. reflexivity.
Qed.

Lemma argmin_ok (l : list R) : l <> [] -> (argmin l < length l)%nat /\ forall x, In x l -> (nth (argmin l) l 0 <= x)%R.
Proof.
  induction l as [|x r IH]; intros Hl; [congruence|]. destruct r as [|y r]; [split; [cbn; lia|]; intros z [<-|[]]; cbn; lra|].
  destruct (IH ltac:(discriminate)) as (I1 & I2). change (argmin (x :: y :: r)) with (if Rltb (nth (argmin (y :: r)) (y :: r) 0%R) x then S (argmin (y :: r)) else 0%nat).
  remember (y :: r) as t eqn:Et. clear Et IH. unfold Rltb. destruct (Rlt_dec (nth (argmin t) t 0%R) x) as [L|L].
  - split; [cbn; lia|]. intros z [<-|Hz]; cbn [nth]; [lra|exact (I2 z Hz)].
  - split; [cbn; lia|]. intros z [<-|Hz]; cbn [nth]; [lra|]. specialize (I2 z Hz). lra.
Qed.

Variable msolve : tensor -> tensor -> tensor.
Hypothesis Hmsolve : msolve_contract msolve.
Variable eig : tensor -> list K * tensor.
Hypothesis Heig : eig_contract eig.

(** What the eigenvector picked by ground_state(Heff, N) is when N is the identity *)
Lemma ground_ok n (N Heff : table) : (0 < n)%nat -> (forall i j, (i < n)%nat -> (j < n)%nat -> N i j = delta i j) -> hermitian n Heff ->
  let c := ArnoldiModel.ground_state msolve eig (to_matrix n Heff) (to_matrix n N) in
  length c = n /\ exists e, vsq n (fun i => nth i c 0) <> 0%R /\ kre (qf n Heff (fun i => nth i c 0)) = (e * vsq n (fun i => nth i c 0%K))%R /\
    forall v, (e * vsq n v <= kre (qf n Heff v))%R.
Proof.
  intros Hn HN HH.
  assert (TM : forall T, is_matrix (to_matrix n T) n n /\ forall i j, (i < n)%nat -> (j < n)%nat -> mat (to_matrix n T) i j = T i j).
  { intros T. split; [split; [reflexivity|apply wf_mk]|]. intros i j Hi Hj. unfold mat, to_matrix. rewrite get_mk by (apply in_range_2; assumption). reflexivity. }
  destruct (TM N) as (A1 & A2). destruct (TM Heff) as (B1 & B2).
  destruct (Hmsolve n _ _ A1 B1) as (C1 & C2).
  { exists Heff. intros i j Hi Hj. rewrite (B2 i j Hi Hj). rewrite (sum_ext n _ (fun k => delta i k * Heff k j)) by (intros k Hk; rewrite (A2 i k Hi Hk), (HN i k Hi Hk); reflexivity). apply (sum_delta_l' n i (fun k => Heff k j) Hi). }
  set (X := msolve (to_matrix n N) (to_matrix n Heff)) in *.
  assert (HX : forall i j, (i < n)%nat -> (j < n)%nat -> mat X i j = Heff i j).
  { intros i j Hi Hj. rewrite <- (B2 i j Hi Hj), <- (C2 i j Hi Hj). symmetry. rewrite (sum_ext n _ (fun k => delta i k * mat X k j)) by (intros k Hk; rewrite (A2 i k Hi Hk), (HN i k Hi Hk); reflexivity). apply (sum_delta_l' n i (fun k => mat X k j) Hi). }
  assert (HXh : hermitian n (mat X)) by (intros i j Hi Hj; rewrite !HX by assumption; apply HH; assumption).
  destruct (Heig n X Hn C1 HXh) as (E & U & Ee & EL & (U1 & U2) & Ecol & Elow). intros c.
  set (j := argmin (map kre E)).
  assert (Ec : c = map (fun i => get U [i; j]) (seq 0 n)).
  { unfold c, ArnoldiModel.ground_state. fold X. rewrite Ee. replace (dim U 0) with n by (unfold dim; rewrite U1; reflexivity). reflexivity. }
  clearbody c. subst c. split; [rewrite map_length, seq_length; reflexivity|].
  assert (Hc : forall i, (i < n)%nat -> nth i (map (fun i => get U [i; j]) (seq 0 n)) 0 = mat U i j) by (intros i Hi; rewrite (nth_map_seq (fun i => get U [i; j])) by exact Hi; reflexivity).
  destruct (argmin_ok (map kre E)) as (J1 & J2); [destruct E; [cbn in EL; lia|discriminate]|]. fold j in J1, J2. rewrite map_length, EL in J1.
  destruct (Ecol j J1) as ((i0 & Hi0 & Hnz) & Hev).
  set (q := fun i => nth i (map (fun i => get U [i; j]) (seq 0 n)) 0).
  assert (Hq : vsq n q <> 0%R) by (intros Z; apply Hnz; rewrite <- (Hc i0 Hi0); exact (vsq_zero n q Z i0 Hi0)).
  assert (HE : forall i, (i < n)%nat -> sum n (fun k => Heff i k * q k) = nth j E 0 * q i).
  { intros i Hi. unfold q at 2. rewrite (Hc i Hi), <- (Hev i Hi). apply sum_ext. intros k Hk. rewrite (HX i k Hi Hk). unfold q. rewrite (Hc k Hk). reflexivity. }
  destruct (eigen_real n Heff (nth j E 0) q HH Hq HE) as (_ & Hk).
  exists (kre (nth j E 0)). split; [exact Hq|]. split; [exact Hk|].
  destruct (lowest_exists n Heff Hn HH) as (e & p & G1 & G2 & G3).
  assert (Hin : In (rinj e) E).
  { apply (Elow e p). split; [exact G1|]. split.
    - intros i Hi. rewrite <- (G2 i Hi). apply sum_ext. intros k Hk'. rewrite (HX i k Hi Hk'). reflexivity.
    - intros v. refine (Rle_trans _ _ _ (G3 v) (Req_le _ _ _)). f_equal. apply sum_ext. intros a Ha. apply sum_ext. intros b Hb. rewrite (HX a b Ha Hb). reflexivity. }
  assert (Hle : (kre (nth j E 0%K) <= e)%R).
  { rewrite <- (kre_rinj e). refine (Rle_trans _ _ _ (Req_le _ _ _) (J2 (kre (rinj e)) (in_map kre E _ Hin))). symmetry. rewrite (nth_indep (map kre E) 0%R (kre 0)) by (rewrite map_length; lia). apply map_nth. }
  intros v. specialize (G3 v). fold (vsq n v) in G3. fold (qf n Heff v) in G3. pose proof (vsq_nonneg n v). nra.
Qed.

Lemma weighted_zero (es : list R) : (forall e, In e es -> e = 0%R) -> forall c, weighted es c = 0%R.
Proof.
  induction es as [|x l IH]; intros Hz [|y c]; cbn [weighted]; try reflexivity. rewrite (IH (fun e He => Hz e (or_intror He)) c), (Hz x (or_introl eq_refl)). ring.
Qed.

Variable svd : tensor -> tensor * list R * tensor.
Hypothesis Hsvd : svd_contract svd.
Variable flag : R.
Hypothesis Hflag : (1 <= flag)%R.
Variable algorithm : bool.
Variable tolerance : R.
Variables internal_sweeps final_sweeps : nat.
Hypothesis Hint : internal_sweeps <> 0%nat.
Hypothesis Hfin : final_sweeps <> 0%nat.
Variable expm : tensor -> tensor.
Variables (H : mpo) (ds : list nat).
Hypothesis HH : hermitian_mpo H ds.
Variable Dmax : Z.
Hypothesis Hsize : one_site algorithm Dmax = true \/ (2 <= length ds)%nat.
Variables (psi : mps) (max_states : nat).
Hypothesis Hopen : open_mps psi.
Hypothesis Hdims : pdims psi = ds.
Hypothesis Hnorm : weight ds (amp psi) = 1%R.
Variables (states : list mps) (N Heff : table) (errors : list R) (current : mps).
Hypothesis Hbasis : arnoldi_basis svd flag algorithm tolerance internal_sweeps H max_states psi Dmax = Ok (states, N, Heff, errors, current).
Hypothesis Hexact : forall e, In e errors -> e = 0%R.
Notation v := (fun k => amp (nth k states [])).

(** The combination of the vectors of the basis with the coefficients x *)
Definition span (x : nat -> K) (is : list nat) : K := sum (length states) (fun k => x k * amp (nth k states []) is).

Lemma energy_inner f : energy_of H ds f = kre (inner ds f (Hv H ds f)).
Proof.
  unfold energy_of, inner, Hv, op_apply. f_equal. apply sumcfg_ext. intros is _. rewrite sumcfg_mul_l. apply sumcfg_ext. intros js _. ring.
Qed.
Lemma Hv_span x is : Hv H ds (span x) is = sum (length states) (fun k => x k * Hv H ds (v k) is).
Proof.
  unfold Hv, op_apply, span. transitivity (sumcfg ds (fun js => sum (length states) (fun k => x k * (opelem H is js * amp (nth k states []) js)))).
  - apply sumcfg_ext. intros js _. rewrite sum_mul_l. apply sum_ext. intros k _. ring.
  - rewrite sumcfg_sum_swap. apply sum_ext. intros k _. rewrite <- sumcfg_mul_l. reflexivity.
Qed.

Lemma span_facts : (0 < length states)%nat /\ (forall i j, (i < length states)%nat -> (j < length states)%nat -> N i j = delta i j) /\ hermitian (length states) Heff /\
  (forall x, weight ds (span x) = vsq (length states) x) /\ (forall x, energy_of H ds (span x) = kre (qf (length states) Heff x)) /\
  (forall is, in_range ds is -> amp (nth 0 states []) is = amp psi is) /\ (forall q, In q states -> open_mps q /\ pdims q = ds) /\ open_mps current /\ (length errors + 1)%nat = length states.
Proof.
  destruct (basis_ok svd Hsvd flag Hflag algorithm tolerance internal_sweeps Hint H ds HH Dmax (size_twice _ _ _ Hsize) psi max_states Hopen Hdims (weight_one ds _ Hnorm)) as (s & N' & F & e & c & Hc & E & HI & _ & H0 & Hcc & _).
  rewrite Hbasis in E. apply Ok_inj' in E. injection E as <- <- <- <- <-. destruct HI as (I1 & I2 & I3 & _ & _ & _ & _ & _ & I9 & _).
  destruct (C69_orthonormal svd Hsvd flag Hflag algorithm tolerance internal_sweeps Hint H ds HH Dmax Hsize psi max_states Hopen Hdims Hnorm states N Heff errors current Hbasis Hexact) as (HO & _).
  split; [destruct states; [congruence|cbn; lia]|]. split; [intros i j Hi Hj; exact (proj2 (HO i j Hi Hj))|]. split.
  { intros i j Hi Hj. rewrite (proj2 (I3 i j Hi Hj)), (proj2 (I3 j i Hj Hi)), inner_conj. apply Hv_herm. exact HH. }
  split; [|split; [|split; [exact H0|split; [intros q Hq; destruct (I2 q Hq) as (A & B & _); auto|auto]]]].
  - intros x. apply rinj_inj. rewrite rinj_weight, vsq_spec. unfold span at 1. rewrite (inner_sum_l ds (span x) (length states) x v). apply sum_ext. intros i Hi. f_equal.
    unfold span. rewrite (inner_sum_r ds (v i) (length states) x v). rewrite (sum_ext _ _ (fun k => x k * delta i k)) by (intros k Hk; rewrite (proj1 (HO i k Hi Hk)); reflexivity). apply (sum_delta_r' (length states) i x Hi).
  - intros x. rewrite energy_inner. f_equal. unfold span at 1. rewrite (inner_sum_l ds (Hv H ds (span x)) (length states) x v). unfold qf. apply sum_ext. intros i Hi.
    rewrite (inner_ext ds (v i) (Hv H ds (span x)) (v i) (fun is => sum (length states) (fun k => x k * Hv H ds (v k) is))) by (intros; first [reflexivity|apply Hv_span]).
    rewrite (inner_sum_r ds (v i) (length states) x (fun k => Hv H ds (v k))), sum_mul_l. apply sum_ext. intros j Hj. rewrite (proj2 (I3 i j Hi Hj)). ring.
Qed.

(** If the recorded errors are zero: with time step zero the coefficients give a state of the lowest energy among the
    combinations of the vectors of the basis; in particular its energy is not larger than that of psi.  The state returned is
    normalized and proportional to the combination up to the returned error. *)
Theorem C69_ground : exists c e, (0 < weight ds (span c))%R /\ energy_of H ds (span c) = (e * weight ds (span c))%R /\
  (forall x, (e * weight ds (span x) <= energy_of H ds (span x))%R) /\ (e <= energy_of H ds (amp psi))%R /\
  forall psi' err, arnoldi_step svd flag algorithm tolerance internal_sweeps final_sweeps msolve expm eig H max_states 0 psi Dmax = Ok (psi', err) ->
    open_mps psi' /\ pdims psi' = ds /\ weight ds (amp psi') = 1%R /\
    exists a, (0 < a)%R /\ inner ds (span c) (amp psi') = rinj a /\ (0 <= err)%R /\ (err ^ 2 = 1 - a ^ 2 / weight ds (span c))%R.
Proof.
  destruct span_facts as (Hn & HN & Hher & HW & HEn & H0 & HQ & Hcur & HL).
  destruct (ground_ok (length states) N Heff Hn HN Hher) as (Hlc & e & G1 & G2 & G3).
  set (c := ArnoldiModel.ground_state msolve eig (to_matrix (length states) Heff) (to_matrix (length states) N)) in *.
  exists (fun i => nth i c 0), e. rewrite HW, HEn.
  assert (Hpos : (0 < vsq (length states) (fun i => nth i c 0%K))%R) by (pose proof (vsq_nonneg (length states) (fun i => nth i c 0)); lra).
  split; [exact Hpos|]. split; [exact G2|]. split; [intros x; rewrite HW, HEn; apply G3|]. split.
  { pose proof (G3 (fun k => delta k 0%nat)) as G. rewrite <- HW, <- HEn in G.
    assert (Hs : forall is, in_range ds is -> span (fun k => delta k 0%nat) is = amp psi is).
    { intros is Hi. rewrite <- (H0 is Hi). unfold span. apply (sum_delta_l (length states) 0 (fun k => amp (nth k states []) is) Hn). }
    rewrite (weight_ext ds _ _ Hs), Hnorm in G. rewrite energy_inner in G |- *. rewrite (inner_ext ds _ (Hv H ds (span (fun k => delta k 0%nat))) (amp psi) (Hv H ds (amp psi)) Hs) in G by (intros is _; apply Hv_ext; exact Hs). lra. }
  assert (Hcombo : forall is, combo c states is = span (fun i => nth i c 0) is) by reflexivity.
  intros psi' err Estep. unfold arnoldi_step in Estep. rewrite Hbasis in Estep. cbn [bind] in Estep. unfold arnoldi_coef in Estep. destruct (keqb_spec (0 : K) 0) as [_|Z]; [|destruct (Z eq_refl)]. fold c in Estep.
  assert (Hval : valid_call flag algorithm psi c states ds final_sweeps Dmax MPS_DEFAULT_TOLERANCE).
  { split; [destruct states; [cbn in Hn; lia|discriminate]|]. split; [exact Hlc|]. split; [exact HQ|]. split; [exact Hopen|]. split; [exact Hdims|]. split; [exact Hfin|]. split.
    - destruct (classic (exists is, in_range ds is /\ combo c states is <> 0)) as [P|P]; [exact P|]. exfalso.
      assert (Z : weight ds (span (fun i => nth i c 0)) = 0%R).
      { apply rinj_inj. rewrite rinj_weight, rinj_0. unfold inner. apply sumcfg_zero. intros is Hi.
        assert (Z : span (fun i => nth i c 0) is = 0) by (destruct (keqb_spec (span (fun i => nth i c 0) is) 0) as [Z|Z]; [exact Z|destruct P; exists is; auto]). rewrite Z. ring. }
      rewrite HW in Z. lra.
    - split; [destruct Hsize as [Hs|Hs]; [left; exact Hs|right; rewrite <- (length_pdims psi), Hdims; exact Hs]|].
      left. unfold truncation, tolerance_used, MPS_DEFAULT_TOLERANCE. destruct (one_site algorithm Dmax); [lra|]. destruct (Rlt_dec (-4) 0); lra. }
  destruct (C62_returns svd flag Hsvd algorithm tolerance psi c states ds (-1) final_sweeps Dmax MPS_DEFAULT_TOLERANCE Hval) as (P' & s' & er & n & E1).
  pose proof (C62_error svd flag Hsvd algorithm tolerance psi c states ds (-1) final_sweeps Dmax MPS_DEFAULT_TOLERANCE Hval P' s' er n E1) as (F1 & F2 & F3 & F4 & F5).
  destruct (Req_EM_T n 0) as [n0|n0].
  { assert (EA : simplify_obc svd flag algorithm tolerance psi c states (-1) final_sweeps true Dmax MPS_DEFAULT_TOLERANCE = Abort).
    { destruct (outcome svd flag Hsvd algorithm tolerance psi c states ds (-1) final_sweeps Dmax MPS_DEFAULT_TOLERANCE Hval P' s' er n E1) as (d & _ & _ & _ & _ & _ & _ & En). destruct (Req_EM_T n 0); [exact En|contradiction]. }
    rewrite EA in Estep. discriminate. }
  destruct (C62_normalize svd flag Hsvd algorithm tolerance psi c states ds (-1) final_sweeps Dmax MPS_DEFAULT_TOLERANCE Hval P' s' er n E1 n0) as (P2 & E2 & K1 & K2 & K3 & K4 & K5).
  rewrite E2 in Estep. cbn [bind] in Estep.
  assert (Hfinal : psi' = P2 /\ err = (er + weighted errors c)%R).
  { destruct (if (s' * -1 <? 0)%Z then canonical_form svd flag current (-1) else Ok current) as [q|]; cbn [bind] in Estep; [|discriminate]. apply Ok_inj' in Estep. injection Estep as <- <-. auto. }
  destruct Hfinal as (-> & ->).
  assert (Hw0 : weighted errors c = 0%R).
  { apply weighted_zero. exact Hexact. }
  rewrite Hw0. split; [exact K1|]. split; [exact K2|]. split; [exact K5|].
  assert (Hnp : (0 < n)%R) by (pose proof (weight_nonneg ds (amp P')); lra).
  assert (Hs : (sqrt n * sqrt n = n)%R) by (apply sqrt_sqrt; lra). assert (Hs0 : (0 < sqrt n)%R) by (apply sqrt_lt_R0; exact Hnp).
  exists (sqrt n). split; [exact Hs0|]. split.
  - rewrite <- (inner_ext ds (combo c states) (amp P2) (span (fun i => nth i c 0)) (amp P2)) by auto.
    rewrite (inner_ext ds _ _ (combo c states) (fun is => rinj (/ sqrt n)%R * amp P' is)) by auto. rewrite inner_scale_r, F2, <- rinj_mul. f_equal. rewrite <- Hs at 2. field. lra.
  - split; [lra|]. rewrite Rplus_0_r. change (combo c states) with (span (fun i => nth i c 0)) in F3, F5. rewrite HW in F3, F5. rewrite F3 in F5. replace (er ^ 2)%R with (er * er)%R by ring. rewrite F5. rewrite <- Hs at 1. field. lra.
Qed.
End Ground.

(** ** A case: the operator X x X, the state |00> and two vectors.  The recorded error is zero; the energy of |00> is zero, that of
    the combination picked is not larger than -1. *)
Theorem C69_ground_case (msolve : tens -> tens -> tens) (eig : tens -> list Cx * tens) (svd : tens -> tens * list R * tens) flag algorithm tolerance internal_sweeps :
  @msolve_contract CC msolve -> @eig_contract CC eig -> @svd_contract CC svd -> (1 <= flag)%R -> internal_sweeps <> 0%nat ->
  exists states N Heff errors current c e, @arnoldi_basis CC svd flag algorithm tolerance internal_sweeps xx 2 (upup 1) 0%Z = Ok (states, N, Heff, errors, current) /\
    (forall e, In e errors -> e = 0%R) /\ (0 < @weight CC [2; 2]%nat (@span CC states c))%R /\
    @energy_of CC xx [2; 2]%nat (@span CC states c) = (e * @weight CC [2; 2]%nat (@span CC states c))%R /\ (e <= -1)%R /\
    @energy_of CC xx [2; 2]%nat (@amp CS (upup 1)) = 0%R.
Proof.
  intros Hm He Hsvd Hflag Hint. destruct (C69_basis_case svd flag algorithm tolerance internal_sweeps Hsvd Hflag Hint) as (states & N & Heff & errors & current & Hb & HL & Hex & Hd & _).
  destruct up_open as (Ho & Hp). pose proof (@one_weight CC [2; 2]%nat _ up_inner) as Hw.
  assert (Hsz : one_site algorithm 0 = true \/ (2 <= length [2; 2]%nat)%nat) by (right; apply le_n).
  destruct (@C69_ground CC msolve Hm eig He svd Hsvd flag Hflag algorithm tolerance internal_sweeps 2 Hint ltac:(discriminate) (fun A => A) xx [2; 2]%nat xx_hermitian 0%Z Hsz (upup 1) 2 Ho Hp Hw states N Heff errors current Hb Hex)
    as (c & e & G1 & G2 & G3 & _ & _).
  destruct (@span_facts CC svd Hsvd flag Hflag algorithm tolerance internal_sweeps 2%nat Hint ltac:(discriminate) xx [2; 2]%nat xx_hermitian 0%Z Hsz (upup 1) 2 Ho Hp Hw states N Heff errors current Hb Hex) as (_ & _ & _ & _ & _ & H0 & _).
  exists states, N, Heff, errors, current, c, e. split; [exact Hb|]. split; [exact Hex|]. split; [exact G1|]. split; [exact G2|]. split; [|cbv -[Rplus Rmult Ropp IZR Rminus]; lra].
  set (x := fun k : nat => match k with O => mkC 1 0 | _ => mkC (-1) 0 end). specialize (G3 x).
  set (f := fun is => Csub (@amp CS (upup 1) is) (downdown is)).
  assert (Hf : forall is, in_range [2; 2]%nat is -> @span CC states x is = f is).
  { intros is Hi. unfold span. rewrite HL. cbn [sum]. pose proof (H0 is Hi) as A. pose proof (Hd is Hi) as B. change (@rs_scalar CC) with CS in *. rewrite A, B. unfold f, x. apply C_ext; cbn; ring. }
  rewrite (@weight_ext CC [2; 2]%nat _ _ Hf) in G3. rewrite energy_inner in G3.
  rewrite (@inner_ext CC [2; 2]%nat _ (@Hv CC xx [2; 2]%nat (@span CC states x)) f (@Hv CC xx [2; 2]%nat f) Hf) in G3 by (intros is _; apply (@Hv_ext CC); exact Hf).
  rewrite <- energy_inner in G3.
  assert (E1 : @weight CC [2; 2]%nat f = 2%R) by (cbv -[Rplus Rmult Ropp IZR Rminus]; lra).
  assert (E2 : @energy_of CC xx [2; 2]%nat f = (-2)%R) by (cbv -[Rplus Rmult Ropp IZR Rminus]; lra).
  rewrite E1, E2 in G3. lra.
Qed.
