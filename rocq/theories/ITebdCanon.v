(** * Proofs about the canonical form of infinite states *)
From Coq Require Import Reals Lra Bool List Arith ZArith Lia Ring.
From Verif Require Import Scalar ScalarFacts RScal Tensor TensorFacts Spec SparseSpec MpsModel MpsFacts EnvFacts ExpectedFacts CanonModel CanonSpec CanonFacts CanonSweep DecompModel SplitFacts QFormFacts LFormFacts LFormValue SvdExist TrotterRun ITebdModel ITebdSpec ITebdFacts ITebdSlow ITebdSpec2 ITebdGauge.
Import ListNotations.
Local Open Scope K_scope.

Section Canon.
Context {RS : RScal}.
Add Ring Kring : k_ring.
Variable eig_sym : tensor -> list R * tensor.
Hypothesis Hes : eig_sym_contract eig_sym.

Lemma get_adjoint R m n i j : is_matrix R m n -> (i < m)%nat -> (j < n)%nat -> get (adjoint R) [j; i] = kconj (get R [i; j]).
Proof. intros (HR & _) Hi Hj. unfold adjoint. rewrite get_tconj, (get_transpose R m n) by assumption. reflexivity. Qed.
Lemma adjoint_matrix R m n : is_matrix R m n -> is_matrix (adjoint R) n m.
Proof.
  intros (HR & Hw). unfold adjoint. split; [unfold transpose, permute, tconj; cbn [dims mk]; rewrite HR; reflexivity|].
  apply wf_tconj. unfold transpose, permute. apply wf_mk.
Qed.

Lemma zero_dec n (f : nat -> K) : (forall i, (i < n)%nat -> f i = 0) \/ exists i, (i < n)%nat /\ f i <> 0.
Proof.
  induction n as [|n [IH|(i & Hi & Hf)]]; [left; intros i Hi; lia| |right; exists i; split; [lia|exact Hf]].
  destruct (keqb_spec (f n) 0) as [E|E]; [|right; exists n; split; [lia|exact E]]. left. intros i Hi. destruct (Nat.eq_dec i n) as [->|]; [exact E|apply IH; lia].
Qed.

(** ortho_basis(V, &X, &Xinv): inverse matrices; X X^dagger = |c| P when V = c P with P positive *)
(** The eigenvalues of a multiple of a positive matrix are multiples of positive numbers *)
Lemma eig_value n V s Rm c P :
  (forall i j, (i < n)%nat -> (j < n)%nat -> sum n (fun k => kconj (get Rm [k; i]) * get Rm [k; j]) = delta i j) ->
  (forall i j, (i < n)%nat -> (j < n)%nat -> get V [i; j] = sum n (fun k => get Rm [i; k] * rinj (nth k s 0%R) * kconj (get Rm [j; k]))) ->
  (forall i j, (i < n)%nat -> (j < n)%nat -> get V [i; j] = rinj c * P i j) -> (forall i j, (i < n)%nat -> (j < n)%nat -> kconj (P i j) = P j i) ->
  (forall v : nat -> K, (exists i, (i < n)%nat /\ v i <> 0) -> (0 < kre (sum n (fun i => sum n (fun j => kconj (v i) * P i j * v j)))%K)%R) ->
  forall k, (k < n)%nat -> exists x, (0 < x)%R /\ nth k s 0%R = (c * x)%R.
Proof.
  intros H1 H3 HP HPh HPp k Hk. exists (kre (qf n P (fun i => get Rm [i; k]))).
  assert (E : nth k s 0%R = (c * kre (qf n P (fun i => get Rm [i; k])))%R).
      { apply rinj_inj. rewrite rinj_mul. rewrite (qf_real n P) by exact HPh. unfold qf.
        transitivity (sum n (fun i0 => sum n (fun j0 => kconj (get Rm [i0; k]) * get V [i0; j0] * get Rm [j0; k]))).
        2:{ rewrite sum_mul_l. apply sum_ext. intros a Ha. rewrite sum_mul_l. apply sum_ext. intros b Hb. rewrite HP by assumption. ring. }
        transitivity (sum n (fun p => (sum n (fun a => kconj (get Rm [a; k]) * get Rm [a; p])) * rinj (nth p s 0%R) * sum n (fun b => kconj (get Rm [b; p]) * get Rm [b; k]))).
        { rewrite (sum_ext n _ (fun p => delta k p * (rinj (nth p s 0%R) * delta p k))); [|intros p Hp; rewrite (H1 k p Hk Hp), (H1 p k Hp Hk); ring].
          rewrite (sum_delta_l' n k (fun p => rinj (nth p s 0%R) * delta p k)) by exact Hk. unfold delta. rewrite Nat.eqb_refl. ring. }
        transitivity (sum n (fun p => sum n (fun a => sum n (fun b => kconj (get Rm [a; k]) * get Rm [a; p] * rinj (nth p s 0%R) * kconj (get Rm [b; p]) * get Rm [b; k])))).
        { apply sum_ext. intros p Hp. rewrite !sum_mul_r. apply sum_ext. intros a Ha. rewrite sum_mul_l. apply sum_ext. intros b Hb. ring. }
        rewrite sum_swap. apply sum_ext. intros a Ha. rewrite sum_swap. apply sum_ext. intros b Hb. rewrite (H3 a b Ha Hb), sum_mul_l, sum_mul_r. apply sum_ext. intros p Hp. ring. }
      assert (Hpos : (0 < kre (qf n P (fun i => get Rm [i; k])))%R).
      { apply HPp. destruct (zero_dec n (fun i => get Rm [i; k])) as [Hz|Hz]; [|exact Hz].
        exfalso. pose proof (H1 k k Hk Hk) as O. rewrite sum_zero in O.
        - unfold delta in O. rewrite Nat.eqb_refl in O. symmetry in O. exact (k1_neq_0 O).
        - intros a Ha. rewrite Hz by exact Ha. ring. }
  split; [exact Hpos|exact E].
Qed.

Lemma ortho_basis_ok n V X Xi : (0 < n)%nat -> is_matrix V n n -> herm n (fun i j => get V [i; j]) -> ortho_basis eig_sym V = Ok (X, Xi) ->
  is_matrix X n n /\ is_matrix Xi n n /\
  (forall i j, (i < n)%nat -> (j < n)%nat -> mm n (mat X) (mat Xi) i j = delta i j) /\
  (forall i j, (i < n)%nat -> (j < n)%nat -> mm n (mat Xi) (mat X) i j = delta i j) /\
  (forall c P, (forall i j, (i < n)%nat -> (j < n)%nat -> get V [i; j] = rinj c * P i j) -> positive n P ->
     forall i j, (i < n)%nat -> (j < n)%nat -> sum n (fun k => get X [i; k] * kconj (get X [j; k])) = rinj (Rabs c) * P i j).
Proof.
  intros Hn HV Hh. unfold ortho_basis. pose proof (Hes n V Hn HV Hh) as C. destruct (eig_sym V) as [s Rm]. destruct C as (Hl & HR & H1 & H2 & H3).
  set (q := map (fun x => sqrt (Rabs x)) s). cbv zeta.
  destruct (existsb (fun x => if Req_EM_T x 0 then true else false) q) eqn:Ex; [discriminate|]. intros Hok. apply Ok_inj' in Hok. injection Hok as <- <-.
  assert (Hq : forall k, (k < n)%nat -> nth k q 0%R = sqrt (Rabs (nth k s 0%R)) /\ nth k q 0%R <> 0%R).
  { intros k Hk. assert (E : nth k q 0%R = sqrt (Rabs (nth k s 0%R))).
    { unfold q. rewrite (nth_indep _ 0%R (sqrt (Rabs 0))) by (rewrite map_length; lia). apply (map_nth (fun x => sqrt (Rabs x))). }
    split; [exact E|]. intros H0. assert (existsb (fun x => if Req_EM_T x 0 then true else false) q = true); [|congruence].
    apply existsb_exists. exists (nth k q 0%R). split; [apply nth_In; unfold q; rewrite map_length; lia|]. destruct (Req_EM_T (nth k q 0%R) 0%R); [reflexivity|contradiction]. }
  assert (Hqi : forall k, (k < n)%nat -> nth k (map Rinv q) 0%R = (/ nth k q 0)%R).
  { intros k Hk. rewrite (nth_indep _ 0%R (/ 0)%R) by (unfold q; rewrite !map_length; lia). apply (map_nth Rinv). }
  assert (HX : is_matrix (scale Rm 1 q) n n) by (destruct HR as (HR & _); split; [exact HR|apply wf_mk]).
  pose proof (adjoint_matrix Rm n n HR) as HRa.
  assert (HXi : is_matrix (scale (adjoint Rm) 0 (map Rinv q)) n n) by (destruct HRa as (HR' & _); split; [exact HR'|apply wf_mk]).
  assert (gX : forall i k, (i < n)%nat -> (k < n)%nat -> get (scale Rm 1 q) [i; k] = get Rm [i; k] * rinj (nth k q 0%R)).
  { intros i k Hi Hk. destruct HR as (HR & _). rewrite get_scale by (rewrite HR; apply in_range_2; assumption). reflexivity. }
  assert (gXi : forall k j, (k < n)%nat -> (j < n)%nat -> get (scale (adjoint Rm) 0 (map Rinv q)) [k; j] = kconj (get Rm [j; k]) * rinj (/ nth k q 0)%R).
  { intros k j Hk Hj. rewrite get_scale by (destruct HRa as (HRa & _); rewrite HRa; apply in_range_2; assumption). cbn [nth].
    rewrite (get_adjoint Rm n n) by assumption. rewrite Hqi by exact Hk. reflexivity. }
  assert (inv : forall k, (k < n)%nat -> rinj (nth k q 0%R) * rinj (/ nth k q 0)%R = 1).
  { intros k Hk. apply rinj_inv. apply Hq. exact Hk. }
  split; [exact HX|]. split; [exact HXi|]. split; [|split].
  - intros i j Hi Hj. rewrite <- (H2 i j Hi Hj). unfold mm, mat. apply sum_ext. intros k Hk. rewrite gX, gXi by assumption.
    transitivity (get Rm [i; k] * kconj (get Rm [j; k]) * (rinj (nth k q 0%R) * rinj (/ nth k q 0)%R)); [ring|]. rewrite inv by exact Hk. ring.
  - intros i j Hi Hj. transitivity (rinj (/ nth i q 0)%R * delta i j * rinj (nth j q 0%R)).
    + rewrite <- (H1 i j Hi Hj), sum_mul_l, sum_mul_r. unfold mm, mat. apply sum_ext. intros k Hk. rewrite gX, gXi by assumption. ring.
    + unfold delta. destruct (Nat.eqb_spec i j) as [->|]; [|ring]. transitivity (rinj (nth j q 0%R) * rinj (/ nth j q 0)%R); [ring|apply inv; exact Hj].
  - intros c P HP (HPh & HPp) i j Hi Hj.
    assert (Hs : forall k, (k < n)%nat -> (Rabs (nth k s 0) = (if Rle_dec 0 c then 1 else -1) * nth k s 0)%R).
    { intros k Hk. destruct (eig_value n V s Rm c P H1 H3 HP HPh HPp k Hk) as (x & Hpos & E).
      rewrite E. rewrite Rabs_mult, (Rabs_right x) by lra. destruct (Rle_dec 0 c).
      - rewrite Rabs_right by lra. ring.
      - rewrite Rabs_left by lra. ring. }
    assert (Hc : Rabs c = ((if Rle_dec 0 c then 1 else -1) * c)%R) by (destruct (Rle_dec 0 c); [rewrite Rabs_right by lra; ring|rewrite Rabs_left by lra; ring]).
    rewrite Hc, rinj_mul. transitivity (rinj (if Rle_dec 0 c then 1 else -1)%R * get V [i; j]); [|rewrite (HP i j) by assumption; ring].
    rewrite (H3 i j Hi Hj), sum_mul_l. apply sum_ext. intros k Hk. rewrite !gX by assumption. rewrite kconj_mul, rinj_conj.
    transitivity (get Rm [i; k] * kconj (get Rm [j; k]) * rinj (nth k q 0 * nth k q 0)%R); [rewrite rinj_mul; ring|].
    destruct (Hq k Hk) as [-> _]. rewrite sqrt_sqrt by apply Rabs_pos. rewrite (Hs k Hk), rinj_mul. ring.
Qed.

Lemma ortho_basis_defined n V c P : (0 < n)%nat -> is_matrix V n n -> herm n (fun i j => get V [i; j]) ->
  (forall i j, (i < n)%nat -> (j < n)%nat -> get V [i; j] = rinj c * P i j) -> positive n P -> c <> 0%R ->
  exists X Xi, ortho_basis eig_sym V = Ok (X, Xi).
Proof.
  intros Hn HV Hh HP (HPh & HPp) Hc. unfold ortho_basis. pose proof (Hes n V Hn HV Hh) as C. destruct (eig_sym V) as [s Rm]. destruct C as (Hl & HR & H1 & H2 & H3).
  set (q := map (fun x => sqrt (Rabs x)) s). cbv zeta.
  destruct (existsb (fun x => if Req_EM_T x 0 then true else false) q) eqn:Ex; [exfalso|eauto].
  apply existsb_exists in Ex. destruct Ex as (x & Hx & E0). destruct (Req_EM_T x 0) as [->|]; [|discriminate].
  unfold q in Hx. apply in_map_iff in Hx. destruct Hx as (y & Hy & Hin). apply (In_nth _ _ 0%R) in Hin. destruct Hin as (k & Hk & <-). rewrite Hl in Hk.
  destruct (eig_value n V s Rm c P H1 H3 HP HPh HPp k Hk) as (x & Hpos & E). rewrite E in Hy. apply sqrt_eq_0 in Hy; [|apply Rabs_pos].
  destruct (Req_EM_T (c * x) 0) as [E1|E1]; [|apply Rabs_no_R0 in E1; contradiction]. apply Rmult_integral in E1. destruct E1; [contradiction|lra].
Qed.

(** ortho_basis fails for a matrix with a column of zeros *)
Lemma ortho_basis_fails n V u : (u < n)%nat -> is_matrix V n n -> herm n (fun i j => get V [i; j]) ->
  (forall i, (i < n)%nat -> get V [i; u] = 0) -> ortho_basis eig_sym V = Abort.
Proof.
  intros Hu HV Hh Hz. unfold ortho_basis. pose proof (Hes n V ltac:(lia) HV Hh) as C. destruct (eig_sym V) as [s Rm]. destruct C as (Hl & HR & H1 & H2 & H3).
  set (q := map (fun x => sqrt (Rabs x)) s). cbv zeta.
  destruct (existsb (fun x => if Req_EM_T x 0 then true else false) q) eqn:Ex; [reflexivity|exfalso].
  assert (Hs : forall p, (p < n)%nat -> nth p s 0%R <> 0%R).
  { intros p Hp E. assert (existsb (fun x => if Req_EM_T x 0 then true else false) q = true); [|congruence].
    apply existsb_exists. exists 0%R. split; [|destruct (Req_EM_T 0 0); [reflexivity|contradiction]].
    unfold q. apply in_map_iff. exists (nth p s 0%R). split; [rewrite E, Rabs_R0; apply sqrt_0|apply nth_In; lia]. }
  assert (Hr : forall p, (p < n)%nat -> kconj (get Rm [u; p]) = 0).
  { intros p Hp.
    assert (E : sum n (fun i => kconj (get Rm [i; p]) * get V [i; u]) = rinj (nth p s 0%R) * kconj (get Rm [u; p])).
    { transitivity (sum n (fun i => sum n (fun k => kconj (get Rm [i; p]) * get Rm [i; k] * (rinj (nth k s 0%R) * kconj (get Rm [u; k]))))).
      { apply sum_ext. intros i Hi. rewrite H3, sum_mul_l by assumption. apply sum_ext. intros; ring. }
      rewrite sum_swap. rewrite (sum_ext n _ (fun k => delta p k * (rinj (nth k s 0%R) * kconj (get Rm [u; k])))).
      2:{ intros k Hk. rewrite <- sum_mul_r, H1 by assumption. reflexivity. }
      apply (sum_delta_l' n p (fun k => rinj (nth k s 0%R) * kconj (get Rm [u; k]))). exact Hp. }
    rewrite sum_zero in E by (intros i Hi; rewrite (Hz i Hi); ring).
    transitivity (rinj (nth p s 0%R) * rinj (/ nth p s 0)%R * kconj (get Rm [u; p])); [rewrite rinj_inv by (apply Hs; exact Hp); ring|].
    transitivity (rinj (/ nth p s 0)%R * (rinj (nth p s 0%R) * kconj (get Rm [u; p]))); [ring|]. rewrite <- E. ring. }
  pose proof (H2 u u Hu Hu) as O. rewrite sum_zero in O by (intros k Hk; rewrite (Hr k Hk); ring).
  unfold delta in O. rewrite Nat.eqb_refl in O. symmetry in O. exact (k1_neq_0 O).
Qed.

Variable svd : tensor -> tensor * list R * tensor.
Hypothesis Hsvd : svd_contract svd.
Variable eigs : (tensor -> tensor) -> nat -> tensor -> tensor.

(** (v^T + v^* ) / 2 *)
Lemma herm_part D v : dims v = [(D * D)%nat] -> wf v ->
  let V := tscale (rinj (/ 2)%R) (tadd (transpose (reshape v [D; D])) (tconj (reshape v [D; D]))) in
  is_matrix V D D /\ herm D (fun i j => get V [i; j]) /\
  forall i j, (i < D)%nat -> (j < D)%nat -> get V [i; j] = rinj (/ 2)%R * (get v [(j + D * i)%nat] + kconj (get v [(i + D * j)%nat])).
Proof.
  intros Hd Hw V. set (w := reshape v [D; D]) in V.
  assert (Hww : wf w) by (apply wf_reshape; [exact Hw|rewrite Hd; cbn; lia]).
  assert (Ht : wf (transpose w)) by apply wf_mk. assert (Hc : wf (tconj w)) by (apply wf_tconj; exact Hww).
  assert (gw : forall i j, (i < D)%nat -> (j < D)%nat -> get w [i; j] = get v [(i + D * j)%nat]).
  { intros i j Hi Hj. unfold w. apply get_reshape. rewrite Hd. cbn. lia. }
  assert (g : forall i j, (i < D)%nat -> (j < D)%nat -> get V [i; j] = rinj (/ 2)%R * (get v [(j + D * i)%nat] + kconj (get v [(i + D * j)%nat]))).
  { intros i j Hi Hj. unfold V. rewrite get_tscale; [|apply wf_tadd; auto|cbn; apply in_range_2; assumption]. f_equal.
    rewrite get_tadd; [|exact Ht|exact Hc|reflexivity|cbn; apply in_range_2; assumption].
    rewrite get_tconj, (get_transpose w D D) by (auto; reflexivity). rewrite !gw by assumption. reflexivity. }
  split; [|split; [|exact g]].
  - split; [reflexivity|]. apply wf_tscale, wf_tadd; auto.
  - intros i j Hi Hj. cbv beta. rewrite (g j i), (g i j) by assumption. rewrite kconj_mul, rinj_conj, kconj_add, kconj_inv. ring.
Qed.

(** psi' is psi in another basis of the bond between cells *)
Definition gauge_rel (psi psi' : itebd) (D E dA dB l : nat) (W Z H J X Y : nat -> nat -> K) : Prop :=
  (forall x i c, (x < l)%nat -> (i < dA)%nat -> (c < E)%nat -> get (iAlA psi') [x; i; c] = sum D (fun a => W x a * get (iAlA psi) [a; i; c])) /\
  (forall c j y, (c < E)%nat -> (j < dB)%nat -> (y < l)%nat -> get (iBlB psi') [c; j; y] = sum D (fun b => get (iBlB psi) [c; j; b] * Z b y)) /\
  (forall c j y, (c < E)%nat -> (j < dB)%nat -> (y < l)%nat -> get (iB psi') [c; j; y] = sum D (fun b => get (iB psi) [c; j; b] * J b y)) /\
  (forall x a, (x < l)%nat -> (a < D)%nat -> rinj (nth x (ilB psi') 0%R) * W x a = H x a * rinj (nth a (ilB psi) 0%R)) /\
  (forall b a, (b < D)%nat -> (a < D)%nat -> rinj (nth b (ilB psi) 0%R) * sum l (fun y => Z b y * W y a) = rinj (nth b (ilB psi) 0%R) * delta b a) /\
  (forall a a', (a < D)%nat -> (a' < D)%nat ->
    sum l (fun x => kconj (H x a) * H x a') * rinj (nth a' (ilB psi) 0%R) = sum D (fun d => kconj (Y a d) * Y a' d) * rinj (nth a' (ilB psi) 0%R)) /\
  (forall b b', (b < D)%nat -> (b' < D)%nat ->
    rinj (nth b (ilB psi) 0%R) * sum l (fun y => Z b y * kconj (Z b' y)) = rinj (nth b (ilB psi) 0%R) * sum D (fun k => X b k * kconj (X b' k))) /\
  (forall x x', (x < l)%nat -> (x' < l)%nat ->
    sum D (fun a => sum D (fun a' => W x a * sum D (fun k => X a k * kconj (X a' k)) * kconj (W x' a'))) = delta x x') /\
  (forall y y', (y < l)%nat -> (y' < l)%nat ->
    sum D (fun b => sum D (fun b' => kconj (J b y) * sum D (fun d => kconj (Y b d) * Y b' d) * J b' y')) = delta y y').

Lemma canonical_gauge psi psi' D E dA dB : (0 < D)%nat -> (0 < E)%nat -> (0 < dA)%nat -> (0 < dB)%nat ->
  dims (iA psi) = [D; dA; E] -> wf (iA psi) -> dims (iB psi) = [E; dB; D] -> wf (iB psi) ->
  length (ilA psi) = E -> length (ilB psi) = D -> dims (iAlA psi) = [D; dA; E] -> dims (iBlB psi) = [E; dB; D] ->
  (forall a i b, (a < D)%nat -> (i < dA)%nat -> (b < E)%nat -> get (iAlA psi) [a; i; b] = get (iA psi) [a; i; b] * rinj (nth b (ilA psi) 0%R)) ->
  (forall b i a, (b < E)%nat -> (i < dB)%nat -> (a < D)%nat -> get (iBlB psi) [b; i; a] = get (iB psi) [b; i; a] * rinj (nth a (ilB psi) 0%R)) ->
  let vr := itebd_power_eig eigs (iA psi) (ilA psi) (iB psi) (ilB psi) (-1) in
  let vl := itebd_power_eig eigs (iA psi) (ilA psi) (iB psi) (ilB psi) 1 in
  is_matrix vr D D -> herm D (fun i j => get vr [i; j]) -> is_matrix vl D D -> herm D (fun i j => get vl [i; j]) ->
  canonical_form svd eigs eig_sym psi = Ok psi' ->
  exists X Xi Y Yi l W Z H J,
    ortho_basis eig_sym vr = Ok (X, Xi) /\ ortho_basis eig_sym vl = Ok (Y, Yi) /\
    (0 < l)%nat /\ (l <= D)%nat /\ length (ilB psi') = l /\ ilA psi' = ilA psi /\ icanon psi' = true /\ wf_itebd psi' /\
    (forall i, (0 <= nth i (ilB psi') 0)%R) /\
    dims (iA psi') = [l; dA; E] /\ dims (iB psi') = [E; dB; l] /\ dims (iAlA psi') = [l; dA; E] /\ dims (iBlB psi') = [E; dB; l] /\
    gauge_rel psi psi' D E dA dB l W Z H J (mat X) (mat Y).
Proof.
  intros HD HE HdA HdB HA HAw HB HBw HlA HlB HAl HBl HgA HgB vr vl Hvr Hhr Hvl Hhl.
  unfold canonical_form. fold vr. fold vl.
  destruct (ortho_basis eig_sym vr) as [[X Xi]|] eqn:EX; [|discriminate]. destruct (ortho_basis eig_sym vl) as [[Y Yi]|] eqn:EY; [|discriminate].
  cbn [bind]. cbv zeta.
  destruct (ortho_basis_ok D vr X Xi HD Hvr Hhr EX) as (HX & HXi & X1 & X2 & _).
  destruct (ortho_basis_ok D vl Y Yi HD Hvl Hhl EY) as (HY & HYi & Y1 & Y2 & _).
  set (a := fold Y 0 (scale X 0 (ilB psi)) 0).
  assert (Ha : is_matrix a D D /\ forall i j, (i < D)%nat -> (j < D)%nat -> get a [i; j] = gaux D (mat X) (mat Y) (fun k => nth k (ilB psi) 0%R) i j).
  { destruct HX as (HX & _). destruct HY as (HY & _). split.
    - split; [unfold a, fold; rewrite dims_mk, HY; cbn [scale dims mk remove_nth]; rewrite HX; reflexivity|apply wf_mk].
    - intros i j Hi Hj. unfold a, fold. rewrite get_mk.
      + unfold rank, dim. rewrite HY. cbn [length nth firstn skipn insert_nth Nat.sub app]. unfold gaux, mm. apply sum_ext. intros k Hk. unfold tp, glX, mat.
        rewrite get_scale by (rewrite HX; apply in_range_2; assumption). cbn [nth]. ring.
      + rewrite HY. cbn [scale dims mk remove_nth]. rewrite HX. cbn. apply in_range_2; assumption. }
  destruct Ha as [Ham Hag]. clearbody a.
  pose proof (Hsvd D D a Ham HD HD) as Hs. destruct (svd a) as [[U lam] V].
  destruct Hs as (Hl0 & Hlm & HU & HV & Hpos & Hdec & OU & OV & Haux).
  set (l := length lam) in *.
  assert (HA1 : dims (fold Xi (rank Xi - 1) (iA psi) 0) = [D; dA; E]) by (apply (dims_fold_VB Xi (iA psi) D D); assumption).
  set (A1 := fold Xi (rank Xi - 1) (iA psi) 0) in *.
  assert (HA2 : dims (fold V (rank V - 1) A1 0) = [l; dA; E]) by (apply (dims_fold_VB V A1 l D); assumption).
  set (A2 := fold V (rank V - 1) A1 0) in *.
  assert (HB1 : dims (fold (iB psi) (rank (iB psi) - 1) Yi (rank Yi - 1)) = [E; dB; D]).
  { destruct HYi as (HYi & _). unfold fold, rank. rewrite HYi, HB. reflexivity. }
  assert (gB1 : forall c j d, (c < E)%nat -> (j < dB)%nat -> (d < D)%nat -> get (fold (iB psi) (rank (iB psi) - 1) Yi (rank Yi - 1)) [c; j; d] = sum D (fun b => get (iB psi) [c; j; b] * get Yi [d; b])).
  { intros c j d Hc Hj Hd. destruct HYi as (HYi & _). unfold fold. rewrite get_mk.
    - unfold rank, dim. rewrite HYi, HB. reflexivity.
    - unfold rank. rewrite HYi, HB. cbn. apply in_range_3; assumption. }
  set (B1 := fold (iB psi) (rank (iB psi) - 1) Yi (rank Yi - 1)) in *.
  assert (HB2 : dims (fold B1 (rank B1 - 1) U 0) = [E; dB; l]) by (apply (dims_fold_BV U B1 l D); assumption).
  assert (gA2 : forall x i c, (x < l)%nat -> (i < dA)%nat -> (c < E)%nat -> get A2 [x; i; c] = sum D (fun a => gW D (mat Xi) (mat V) x a * get (iA psi) [a; i; c])).
  { intros x i c Hx Hi Hc. unfold A2. rewrite (get_fold_VB V A1 l D dA E) by assumption.
    transitivity (sum D (fun z => sum D (fun y => get V [x; z] * get Xi [z; y] * get (iA psi) [y; i; c]))).
    { apply sum_ext. intros z Hz. unfold A1. rewrite (get_fold_VB Xi (iA psi) D D dA E) by assumption. rewrite sum_mul_l. apply sum_ext. intros; ring. }
    rewrite sum_swap. apply sum_ext. intros y Hy. unfold gW, mm, mat. rewrite sum_mul_r. reflexivity. }
  assert (gB2 : forall c j y, (c < E)%nat -> (j < dB)%nat -> (y < l)%nat -> get (fold B1 (rank B1 - 1) U 0) [c; j; y] = sum D (fun b => get (iB psi) [c; j; b] * gJ D (mat Yi) (mat U) b y)).
  { intros c j y Hc Hj Hy. rewrite (get_fold_BV U B1 l D dB E) by assumption.
    transitivity (sum D (fun d => sum D (fun b => get (iB psi) [c; j; b] * (get Yi [d; b] * get U [d; y])))).
    { apply sum_ext. intros d Hd. rewrite gB1 by assumption. rewrite sum_mul_r. apply sum_ext. intros; ring. }
    rewrite sum_swap. apply sum_ext. intros b Hb. unfold gJ, mm, tp, mat. rewrite sum_mul_l. reflexivity. }
  set (B2 := fold B1 (rank B1 - 1) U 0) in *.
  unfold new_itebd. replace (Nat.eqb (rank A2) 3) with true by (unfold rank; rewrite HA2; reflexivity).
  unfold dim. rewrite HA2, HB2. cbn [nth]. rewrite HlA. fold l. rewrite !Nat.eqb_refl. cbn [andb]. intros Hok. apply Ok_inj' in Hok. subst psi'.
  unfold rank. rewrite HA2, HB2. cbn [length Nat.sub].
  assert (X1' : forall i j, (i < D)%nat -> (j < D)%nat -> mm D (mat Y) (mat Yi) i j = delta i j) by exact Y1.
  assert (OU' : forall i j, (i < l)%nat -> (j < l)%nat -> mm D (ad (mat U)) (mat U) i j = delta i j) by exact OU.
  assert (OV' : forall i j, (i < l)%nat -> (j < l)%nat -> mm D (mat V) (ad (mat V)) i j = delta i j) by exact OV.
  assert (Haux' : forall i j, (i < D)%nat -> (j < D)%nat -> gaux D (mat X) (mat Y) (fun k => nth k (ilB psi) 0%R) i j = sum l (fun k => mat U i k * rinj (nth k lam 0%R) * mat V k j)).
  { intros i j Hi Hj. rewrite <- Hag by assumption. apply Haux; assumption. }
  assert (gAl : forall x i c, (x < l)%nat -> (i < dA)%nat -> (c < E)%nat -> get (scale A2 2 (ilA psi)) [x; i; c] = get A2 [x; i; c] * rinj (nth c (ilA psi) 0%R)).
  { intros x i c Hx Hi Hc. apply get_scale. rewrite HA2. apply in_range_3; assumption. }
  assert (gBl : forall c j y, (c < E)%nat -> (j < dB)%nat -> (y < l)%nat -> get (scale B2 2 lam) [c; j; y] = get B2 [c; j; y] * rinj (nth y lam 0%R)).
  { intros x i c Hx Hi Hc. apply get_scale. rewrite HB2. apply in_range_3; assumption. }
  exists X, Xi, Y, Yi, l, (gW D (mat Xi) (mat V)), (gZ D (mat X) (mat V)), (gH D (mat Y) (mat U)), (gJ D (mat Yi) (mat U)).
  split; [reflexivity|]. split; [reflexivity|]. split; [exact Hl0|]. split; [lia|]. split; [reflexivity|]. split; [reflexivity|]. split; [reflexivity|]. split.
  { exists l, E, dA, dB. cbn [iA iB ilA ilB iAlA iBlB].
    split; [exact Hl0|]. split; [exact HE|]. split; [exact HdA|]. split; [exact HdB|].
    split; [exact HA2|]. split; [apply wf_mk|]. split; [exact HB2|]. split; [apply wf_mk|]. split; [exact HlA|]. split; [reflexivity|].
    split; [exact HA2|]. split; [apply wf_mk|]. split; [exact HB2|]. split; [apply wf_mk|]. split; assumption. }
  split.
  { cbn [ilB]. intros i. destruct (Nat.lt_ge_cases i l); [apply Hpos; assumption|]. rewrite nth_overflow by assumption. lra. }
  split; [exact HA2|]. split; [exact HB2|]. split; [exact HA2|]. split; [exact HB2|].
  unfold gauge_rel. cbn [iA iB ilA ilB iAlA iBlB]. split; [|split; [|split; [|split; [|split; [|split; [|split; [|split]]]]]]].
  - intros x i c Hx Hi Hc. rewrite gAl, gA2, sum_mul_r by assumption. apply sum_ext. intros b Hb. rewrite HgA by assumption. ring.
  - intros c j y Hc Hj Hy. rewrite gBl, gB2, sum_mul_r by assumption. apply sum_ext. intros b Hb. rewrite HgB by assumption.
    transitivity (get (iB psi) [c; j; b] * (gJ D (mat Yi) (mat U) b y * rinj (nth y lam 0%R))); [ring|].
    rewrite (J_lam D l (mat X) (mat Y) (mat Yi) (mat U) (mat V) (fun k => nth k (ilB psi) 0%R) (fun k => nth k lam 0%R)) by assumption. unfold glZ. ring.
  - exact gB2.
  - intros x b Hx Hb. apply (lam_W D l (mat X) (mat Xi) (mat Y) (mat U) (mat V) (fun k => nth k (ilB psi) 0%R) (fun k => nth k lam 0%R)); assumption.
  - intros b b' Hb Hb'. rewrite <- (gZW D l (mat X) (mat Xi) (mat Y) (mat Yi) (mat U) (mat V) (fun k => nth k (ilB psi) 0%R) (fun k => nth k lam 0%R)) by assumption.
    unfold mm, glZ. rewrite sum_mul_l. apply sum_ext. intros; ring.
  - intros b b' Hb Hb'. apply (gHH D l (mat X) (mat Xi) (mat Y) (mat U) (mat V) (fun k => nth k (ilB psi) 0%R) (fun k => nth k lam 0%R)); assumption.
  - intros b b' Hb Hb'. apply (lZZ D l (mat X) (mat Xi) (mat Y) (mat Yi) (mat U) (mat V) (fun k => nth k (ilB psi) 0%R) (fun k => nth k lam 0%R)); assumption.
  - intros x x' Hx Hx'. apply (WXXW D l (mat X) (mat Xi) (mat V)); assumption.
  - intros y y' Hy Hy'. apply (JYYJ D l (mat Y) (mat Yi) (mat U)); assumption.
Qed.

(** canonical_form fails only where ortho_basis does *)
Lemma canonical_total psi D E dA dB : (0 < D)%nat -> (0 < E)%nat -> (0 < dA)%nat -> (0 < dB)%nat ->
  dims (iA psi) = [D; dA; E] -> wf (iA psi) -> dims (iB psi) = [E; dB; D] -> wf (iB psi) ->
  length (ilA psi) = E -> length (ilB psi) = D ->
  let vr := itebd_power_eig eigs (iA psi) (ilA psi) (iB psi) (ilB psi) (-1) in
  let vl := itebd_power_eig eigs (iA psi) (ilA psi) (iB psi) (ilB psi) 1 in
  is_matrix vr D D -> herm D (fun i j => get vr [i; j]) -> is_matrix vl D D -> herm D (fun i j => get vl [i; j]) ->
  (exists X Xi, ortho_basis eig_sym vr = Ok (X, Xi)) -> (exists Y Yi, ortho_basis eig_sym vl = Ok (Y, Yi)) ->
  exists psi', canonical_form svd eigs eig_sym psi = Ok psi'.
Proof.
  intros HD HE HdA HdB HA HAw HB HBw HlA HlB vr vl Hvr Hhr Hvl Hhl (X & Xi & EX) (Y & Yi & EY).
  unfold canonical_form. fold vr. fold vl. rewrite EX, EY. cbn [bind]. cbv zeta.
  destruct (ortho_basis_ok D vr X Xi HD Hvr Hhr EX) as (HX & HXi & X1 & X2 & _).
  destruct (ortho_basis_ok D vl Y Yi HD Hvl Hhl EY) as (HY & HYi & Y1 & Y2 & _).
  set (a := fold Y 0 (scale X 0 (ilB psi)) 0).
  assert (Ha : is_matrix a D D).
  { destruct HX as (HX & _). destruct HY as (HY & _).
    split; [unfold a, fold; rewrite dims_mk, HY; cbn [scale dims mk remove_nth]; rewrite HX; reflexivity|apply wf_mk]. }
  clearbody a. pose proof (Hsvd D D a Ha HD HD) as Hs. destruct (svd a) as [[U lam] V].
  destruct Hs as (Hl0 & Hlm & HU & HV & _).
  set (l := length lam) in *.
  assert (HA1 : dims (fold Xi (rank Xi - 1) (iA psi) 0) = [D; dA; E]) by (apply (dims_fold_VB Xi (iA psi) D D); assumption).
  set (A1 := fold Xi (rank Xi - 1) (iA psi) 0) in *.
  assert (HA2 : dims (fold V (rank V - 1) A1 0) = [l; dA; E]) by (apply (dims_fold_VB V A1 l D); assumption).
  set (A2 := fold V (rank V - 1) A1 0) in *.
  assert (HB1 : dims (fold (iB psi) (rank (iB psi) - 1) Yi (rank Yi - 1)) = [E; dB; D]).
  { destruct HYi as (HYi & _). unfold fold, rank. rewrite HYi, HB. reflexivity. }
  set (B1 := fold (iB psi) (rank (iB psi) - 1) Yi (rank Yi - 1)) in *.
  assert (HB2 : dims (fold B1 (rank B1 - 1) U 0) = [E; dB; l]) by (apply (dims_fold_BV U B1 l D); assumption).
  set (B2 := fold B1 (rank B1 - 1) U 0) in *.
  unfold new_itebd. replace (Nat.eqb (rank A2) 3) with true by (unfold rank; rewrite HA2; reflexivity).
  unfold dim. rewrite HA2, HB2. cbn [nth]. rewrite HlA. fold l. rewrite !Nat.eqb_refl. cbn [andb]. eauto.
Qed.

End Canon.
