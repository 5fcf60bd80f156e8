(** * The state built from a cell *)
From Coq Require Import Reals Lra Bool List Arith ZArith Lia Ring.
From Verif Require QFormFacts SparseFacts.
From Verif Require Import Scalar ScalarFacts RScal Tensor TensorFacts Spec MpsModel MpsFacts EnvFacts CanonModel CanonSpec TruncFacts CanonFacts CanonSweep CanonNorm SplitFacts DecompModel DecompFacts Properties_Decomp LFormFacts LFormValue SvdExist EckartYoung TrotterRun ITebdModel ITebdSpec ITebdFacts ITebdSlow ITebdSpec2 ITebdGauge ITebdCanon ITebdCanon2 ITebdEig ITebdApply ITebdApply2 ITebdNewModel ITebdNewSpec ITebdNew.
Import ListNotations.
Local Open Scope K_scope.

Section New.
Context {RS : RScal}.
Add Ring Kring : k_ring.

(** ** Rings and cells *)
Lemma cells_of_ext D f g n : (forall i j a b, (a < D)%nat -> (b < D)%nat -> f i j a b = g i j a b) -> forall is a b, (a < D)%nat -> (b < D)%nat -> cells_of D f n is a b = cells_of D g n is a b.
Proof.
  intros H. induction n as [|n IH]; intros is a b Ha Hb; [reflexivity|]. destruct is as [|i [|j is]]; [reflexivity|reflexivity|]. cbn [cells_of].
  apply sum_ext. intros c Hc. rewrite H, IH by assumption. reflexivity.
Qed.
Lemma cells_of_ext_in D f g dA dB n : (forall i j a b, (i < dA)%nat -> (j < dB)%nat -> (a < D)%nat -> (b < D)%nat -> f i j a b = g i j a b) ->
  forall is a b, in_range (concat (repeat [dA; dB] n)) is -> (a < D)%nat -> (b < D)%nat -> cells_of D f n is a b = cells_of D g n is a b.
Proof.
  intros H. induction n as [|n IH]; intros is a b Hi Ha Hb; [reflexivity|]. cbn [repeat concat app] in Hi.
  apply in_range_cons_inv in Hi. destruct Hi as (i & is1 & -> & Hi & H1). apply in_range_cons_inv in H1. destruct H1 as (j & is2 & -> & Hj & H2). cbn [cells_of].
  apply sum_ext. intros c Hc. rewrite H, IH by assumption. reflexivity.
Qed.
Lemma cells_of_scale D z f n : forall is a b, cells_of D (fun i j a b => z * f i j a b) n is a b = kpow z n * cells_of D f n is a b.
Proof.
  induction n as [|n IH]; intros is a b; [cbn; ring|]. destruct is as [|i [|j is]]; [cbn [cells_of]; ring|cbn [cells_of]; ring|]. cbn [cells_of kpow].
  rewrite sum_mul_l. apply sum_ext. intros c Hc. rewrite IH. ring.
Qed.

Lemma chain_cells_of psi D E dA dB n : (0 < D)%nat -> (0 < E)%nat -> (0 < dA)%nat -> (0 < dB)%nat -> dims (iA psi) = [D; dA; E] -> dims (iB psi) = [E; dB; D] ->
  dims (iAlA psi) = [D; dA; E] -> wf (iAlA psi) -> dims (iBlB psi) = [E; dB; D] -> wf (iBlB psi) ->
  forall is a b, in_range (cell_dims psi n) is -> (a < D)%nat -> (b < D)%nat ->
  chain (cells psi n) is a b = cells_of D (fun i j => chain [iAlA psi; iBlB psi] [i; j]) n is a b.
Proof.
  intros HD HE HdA HdB HA HB HAl HAlw HBl HBlw. induction n as [|n IH]; intros is a b Hi Ha Hb.
  - unfold cell_dims in Hi. cbn in Hi. apply in_range_nil_inv in Hi. subst is. reflexivity.
  - destruct (cells_range psi D E dA dB HA HB n is Hi) as (i1 & i2 & -> & H1 & H2 & L). destruct (cell_in _ _ i1 H1) as (i & j & -> & Hi1 & Hj1).
    rewrite (chain_cells_S psi D E dA dB) by assumption. cbn [app cells_of]. unfold mm. apply sum_ext. intros c Hc. rewrite IH by assumption. reflexivity.
Qed.
Lemma ring_cells psi D E dA dB n is : (0 < D)%nat -> (0 < E)%nat -> (0 < dA)%nat -> (0 < dB)%nat -> dims (iA psi) = [D; dA; E] -> dims (iB psi) = [E; dB; D] ->
  dims (iAlA psi) = [D; dA; E] -> wf (iAlA psi) -> dims (iBlB psi) = [E; dB; D] -> wf (iBlB psi) -> (0 < n)%nat -> in_range (cell_dims psi n) is ->
  ring psi n is = sum D (fun a => cells_of D (fun i j => chain [iAlA psi; iBlB psi] [i; j]) n is a a).
Proof.
  intros HD HE HdA HdB HA HB HAl HAlw HBl HBlw Hn Hi. unfold ring, amp. destruct n as [|n]; [lia|].
  assert (L1 : left_bond (cells psi (S n)) = D) by (unfold left_bond, cells; cbn [repeat concat app]; unfold dim; rewrite HAl; reflexivity). rewrite L1.
  apply sum_ext. intros a Ha. apply (chain_cells_of psi D E dA dB); assumption.
Qed.

Variable svd : tensor -> tensor * list R * tensor.
Variable flag : R.
Variable eigs : (tensor -> tensor) -> nat -> tensor -> tensor.
Variable eig_sym : tensor -> list R * tensor.
Hypothesis Hsvd : svd_contract svd.
Hypothesis Hes : eig_sym_contract eig_sym.

Section Cell.
Variables (AB : tensor) (l : list R) (D dA dB : nat).
Hypothesis HD : (0 < D)%nat.
Hypothesis HdA : (0 < dA)%nat.
Hypothesis HdB : (0 < dB)%nat.
Hypothesis HAB : dims AB = [D; dA; dB; D].
Hypothesis HABw : wf AB.
Hypothesis Hl : length l = D.
Notation plain := (plain AB l D dA dB).
Notation turned := (turned AB D dA dB).

Lemma plain_chain i j a b : (i < dA)%nat -> (j < dB)%nat -> (a < D)%nat -> (b < D)%nat -> chain [iAlA plain; iBlB plain] [i; j] a b = cell_entry AB l i j a b.
Proof.
  intros Hi Hj Ha Hb. rewrite (chain2 _ _ i j a b (dB * D) D) by (first [reflexivity|exact Hb]). unfold cell_entry. rewrite <- (cell_plain AB l D dA dB) by assumption.
  rewrite sum_mul_r. apply sum_ext. intros e He. cbn [iAlA iBlB ITebdNew.plain]. rewrite get_scale by (apply in_range_3; assumption). cbn [nth]. ring.
Qed.
Lemma plain_ring n is : (0 < n)%nat -> in_range (cell_dims plain n) is -> ring plain n is = cell_ring AB l n is.
Proof.
  intros Hn Hi. rewrite (ring_cells plain D (dB * D) dA dB) by (first [assumption|reflexivity|nia|apply (cA_wf AB l D dA dB); assumption|apply wf_mk]).
  unfold cell_ring. rewrite Hl. apply sum_ext. intros a Ha. apply (cells_of_ext_in D _ _ dA dB); [|exact Hi|exact Ha|exact Ha].
  intros. apply plain_chain; assumption.
Qed.

(** The change of bases *)
Lemma turned_gauge X Xi Y Yi U V c lam : (0 < c)%nat -> length lam = c ->
  (forall i j, (i < D)%nat -> (j < D)%nat -> mm D (mat X) (mat Xi) i j = delta i j) -> (forall i j, (i < D)%nat -> (j < D)%nat -> mm D (mat Xi) (mat X) i j = delta i j) ->
  (forall i j, (i < D)%nat -> (j < D)%nat -> mm D (mat Y) (mat Yi) i j = delta i j) -> (forall i j, (i < D)%nat -> (j < D)%nat -> mm D (mat Yi) (mat Y) i j = delta i j) ->
  (forall i j, (i < c)%nat -> (j < c)%nat -> mm D (ad (mat U)) (mat U) i j = delta i j) -> (forall i j, (i < c)%nat -> (j < c)%nat -> mm D (mat V) (ad (mat V)) i j = delta i j) ->
  (forall i j, (i < D)%nat -> (j < D)%nat -> gaux D (mat X) (mat Y) (fun k => nth k l 0%R) i j = sum c (fun k => mat U i k * rinj (nth k lam 0%R) * mat V k j)) ->
  gauge_rel plain (turned c (gW D (mat Xi) (mat V)) (gJ D (mat Yi) (mat U)) lam) D (dB * D) dA dB c (gW D (mat Xi) (mat V)) (gZ D (mat X) (mat V)) (gH D (mat Y) (mat U)) (gJ D (mat Yi) (mat U)) (mat X) (mat Y).
Proof.
  intros Hc Hlam X1 X2 Y1 Y2 OU OV Haux.
  unfold gauge_rel. cbn [iA iB ilA ilB iAlA iBlB ITebdNew.plain ITebdNew.turned]. split; [|split; [|split; [|split; [|split; [|split; [|split; [|split]]]]]]].
  - intros x i e Hx Hi He. unfold tA. rewrite get_mk by (apply in_range_3; assumption). reflexivity.
  - intros e j y He Hj Hy. rewrite get_scale by (apply in_range_3; assumption). cbn [nth]. unfold tB. rewrite get_mk by (apply in_range_3; assumption). cbn [nth]. rewrite sum_mul_r. apply sum_ext. intros b Hb.
    rewrite get_scale by (apply in_range_3; assumption). cbn [nth].
    transitivity (get (cB D dB) [e; j; b] * (gJ D (mat Yi) (mat U) b y * rinj (nth y lam 0%R))); [ring|].
    rewrite (J_lam D c (mat X) (mat Y) (mat Yi) (mat U) (mat V) (fun k => nth k l 0%R) (fun k => nth k lam 0%R)) by assumption. unfold glZ. ring.
  - intros e j y He Hj Hy. unfold tB. rewrite get_mk by (apply in_range_3; assumption). reflexivity.
  - intros x b Hx Hb. apply (lam_W D c (mat X) (mat Xi) (mat Y) (mat U) (mat V) (fun k => nth k l 0%R) (fun k => nth k lam 0%R)); assumption.
  - intros b b' Hb Hb'. rewrite <- (gZW D c (mat X) (mat Xi) (mat Y) (mat Yi) (mat U) (mat V) (fun k => nth k l 0%R) (fun k => nth k lam 0%R)) by assumption.
    unfold mm, glZ. rewrite sum_mul_l. apply sum_ext. intros; ring.
  - intros b b' Hb Hb'. apply (gHH D c (mat X) (mat Xi) (mat Y) (mat U) (mat V) (fun k => nth k l 0%R) (fun k => nth k lam 0%R)); assumption.
  - intros b b' Hb Hb'. apply (lZZ D c (mat X) (mat Xi) (mat Y) (mat Yi) (mat U) (mat V) (fun k => nth k l 0%R) (fun k => nth k lam 0%R)); assumption.
  - intros x x' Hx Hx'. apply (WXXW D c (mat X) (mat Xi) (mat V)); assumption.
  - intros y y' Hy Hy'. apply (JYYJ D c (mat Y) (mat Yi) (mat U)); assumption.
Qed.

Definition exact (tol : R) (Dmax : Z) : Prop := (eff_tol flag tol = 0 \/ 1 <= eff_tol flag tol)%R /\ (Dmax <= 0)%Z.

Lemma new_cell_ok tol Dmax psi : eigs_sized eigs -> new_cell svd flag eigs eig_sym AB l tol Dmax = Ok psi ->
  exists X Xi Y Yi W J H Z c s N1 N2, ortho_basis eig_sym (vright eigs AB l D dA dB) = Ok (X, Xi) /\ ortho_basis eig_sym (vleft eigs AB l D dA dB) = Ok (Y, Yi) /\
    dA = dB /\ (0 < c)%nat /\ (c <= D)%nat /\ ((0 < Dmax)%Z -> (Z.of_nat c <= Dmax)%Z) /\ length s = c /\ (0 < N1)%R /\ (0 < N2)%R /\
    (forall k, (k < c)%nat -> (0 < nth k s 0)%R) /\ tail_weight s 0 = 1%R /\
    apply_even svd flag (turned c W J s) (eye (dA * dB)) tol Dmax = Ok psi /\ ilB psi = s /\
    (exists E, (0 < E)%nat /\ (E <= c * dA)%nat /\ ((0 < Dmax)%Z -> (Z.of_nat E <= Dmax)%Z) /\ dims (iA psi) = [c; dA; E] /\ wf (iA psi) /\ dims (iB psi) = [E; dB; c] /\ wf (iB psi) /\ length (ilA psi) = E /\
       (forall k, (k < E)%nat -> (0 <= nth k (ilA psi) 0)%R)) /\ tail_weight (ilA psi) 0 = 1%R /\ icanon psi = false /\ wf_itebd psi /\
    (exact tol Dmax -> gauge_rel plain (turned c W J (map (Rmult N1) s)) D (dB * D) dA dB c W Z H J (mat X) (mat Y) /\
      (forall i j a b, (i < dA)%nat -> (j < dB)%nat -> (a < c)%nat -> (b < c)%nat ->
         chain [iAlA (turned c W J s); iB (turned c W J s)] [i; j] a b = rinj N2 * chain [iAlA psi; iB psi] [i; j] a b)).
Proof.
  intros He. rewrite (new_cell_steps svd flag eigs eig_sym Hsvd Hes AB l D dA dB HD HdA HdB HAB Hl tol Dmax He).
  destruct (bases_sized eigs AB l D dA dB He) as [[R1 R2] [L1 L2]].
  destruct (ortho_basis eig_sym (vright eigs AB l D dA dB)) as [[X Xi]|] eqn:EX; [|discriminate]. cbn [bind].
  destruct (ortho_basis eig_sym (vleft eigs AB l D dA dB)) as [[Y Yi]|] eqn:EY; [|discriminate]. cbn [bind].
  destruct (ortho_basis_ok eig_sym Hes D _ X Xi HD R1 R2 EX) as (HX & HXi & X1 & X2 & _).
  destruct (ortho_basis_ok eig_sym Hes D _ Y Yi HD L1 L2 EY) as (HY & HYi & Y1 & Y2 & _).
  destruct (overlap_ok l D X Y HX HY) as [Ho Hog].
  destruct (zero_dec (D * D) (fun x => get (overlap l X Y) [x mod D; x / D]%nat)) as [Hz|(x & Hx & Hz)].
  { rewrite (limited_svd_zero svd flag Hsvd (overlap l X Y) D D); try assumption; [discriminate|].
    intros i j Hi Hj. specialize (Hz (i + D * j)%nat ltac:(nia)). cbv beta in Hz.
    rewrite (Nat.mul_comm D j), Nat.mod_add, Nat.div_add, Nat.mod_small, Nat.div_small in Hz by lia. exact Hz. }
  destruct (limited_svd_ok svd flag Hsvd (overlap l X Y) D D tol Dmax Ho HD HD) as (Us & sv & Vs & Es & Hs & H).
  { exists (x mod D)%nat, (x / D)%nat. split; [apply Nat.mod_upper_bound; lia|]. split; [|exact Hz]. apply Nat.div_lt_upper_bound; lia. }
  cbv zeta in H. destruct H as ((Hc0 & Hc1) & HN & _ & HNN & Htot & U & s & V & Elim & HU & HV & Hls & Hs' & GU & GV).
  set (c := where_to_truncate flag sv tol Dmax) in *. set (N1 := norm2_list (firstn c sv)) in *.
  rewrite Elim. cbn [bind]. rewrite Hls. set (W := gW D (mat Xi) (mat V)). set (J := gJ D (mat Yi) (mat U)). intros Hok.
  assert (Hwt : wf_itebd (turned c W J s)) by (apply (turned_wf AB l D dA dB); assumption).
  assert (HgB : forall b i a, (b < dB * D)%nat -> (i < dB)%nat -> (a < c)%nat -> get (iBlB (turned c W J s)) [b; i; a] = get (iB (turned c W J s)) [b; i; a] * rinj (nth a (ilB (turned c W J s)) 0%R)).
  { intros b i a Hb Hi Ha. apply get_scale. apply in_range_3; assumption. }
  assert (HE : (0 < dB * D)%nat) by nia.
  destruct (apply_even_ok svd Hsvd flag (turned c W J s) c (dB * D) dA dB Hc0 HE HdA HdB eq_refl eq_refl Hls eq_refl eq_refl HgB (eye (dA * dB)) (eye_matrix _) tol Dmax psi Hok)
    as (EdAB & E & N2 & HE0 & HEm & HEz & HN2 & DA & WA & DB & WB & LA & LB & Hcan & EAl & EBl & Hpos & Htw & Hnz & _ & Hex & _ & _).
  cbn [ilB ITebdNew.turned] in LB, Hnz.
  assert (Hsp : forall k, (k < c)%nat -> (0 < nth k s 0)%R).
  { intros k Hk. assert (Hge : (0 <= nth k s 0)%R).
    { rewrite Hs' by exact Hk. destruct Hs as (_ & _ & _ & _ & Hp & _). apply Rmult_le_pos; [apply Hp; lia|]. left. apply Rinv_0_lt_compat. exact HN. }
    destruct (Rle_lt_or_eq_dec _ _ Hge) as [L|L]; [exact L|exfalso; exact (Hnz k Hk (eq_sym L))]. }
  assert (Hst : tail_weight s 0 = 1%R).
  { assert (Es' : s = map (fun x => (x / N1)%R) (firstn c sv)).
    { apply (nth_ext _ _ 0%R 0%R); [rewrite map_length, firstn_length_le by exact Hc1; exact Hls|]. intros k Hk. rewrite Hls in Hk.
      rewrite Hs' by exact Hk. rewrite nth_map_R by (rewrite firstn_length_le by exact Hc1; exact Hk). rewrite nth_firstn_lt' by exact Hk. reflexivity. }
    rewrite Es'. assert (Hg : forall l, (tail_weight (map (fun x => (x / N1)%R) l) 0 = tail_weight l 0 / (N1 * N1))%R).
    { induction l0 as [|y l' IH]; unfold tail_weight in *; cbn [skipn map fold_right] in *; [field; lra|]. rewrite IH. field. lra. }
    rewrite Hg. rewrite <- norm2_list_sq. fold N1. field. lra. }
  exists X, Xi, Y, Yi, W, J, (gH D (mat Y) (mat U)), (gZ D (mat X) (mat V)), c, s, N1, N2.
  split; [reflexivity|]. split; [reflexivity|]. split; [exact EdAB|]. split; [exact Hc0|].
  split. { destruct Hs as (_ & Hlm & _). lia. }
  split. { intros HDm. pose proof (wtt_le flag sv tol Dmax) as Hle. fold c in Hle. unfold eff_max in Hle.
    destruct (Z.leb_spec Dmax 0), (Z.ltb_spec (Z.of_nat (length sv)) Dmax); cbn in Hle; lia. }
  split; [exact Hls|]. split; [exact HN|]. split; [exact HN2|]. split; [exact Hsp|]. split; [exact Hst|]. split; [exact Hok|]. split; [exact LB|].
  split. { exists E. split; [exact HE0|]. split; [lia|]. split; [exact HEz|]. split; [exact DA|]. split; [exact WA|]. split; [exact DB|]. split; [exact WB|]. split; [exact LA|exact Hpos]. }
  split; [exact Htw|]. split; [exact Hcan|].
  split. { exists c, E, dA, dB. do 4 (split; [assumption|]). split; [exact DA|]. split; [exact WA|]. split; [exact DB|]. split; [exact WB|]. split; [exact LA|]. split; [rewrite LB; exact Hls|].
    rewrite EAl, EBl. split; [exact DA|]. split; [apply wf_mk|]. split; [exact DB|]. split; [apply wf_mk|]. split; intros; apply get_scale; rewrite ?DA, ?DB; apply in_range_3; assumption. }
  intros [Ht HDm]. split.
  - apply turned_gauge; try assumption.
    + rewrite map_length. exact Hls.
    + intros i j Hi Hj. destruct Hs as (_ & _ & HUs & HVs & _ & _ & OU & OV & _). rewrite <- (OU i j) by lia. unfold mm, ad, mat. apply sum_ext. intros k Hk. rewrite !GU by assumption. reflexivity.
    + intros i j Hi Hj. destruct Hs as (_ & _ & HUs & HVs & _ & _ & OU & OV & _). rewrite <- (OV i j) by lia. unfold mm, ad, mat. apply sum_ext. intros k Hk. rewrite !GV by assumption. reflexivity.
    + intros i j Hi Hj. rewrite <- Hog by assumption. rewrite (limited_sum D D _ Us sv Vs c N1 i j Hs Hc1 HN Hi Hj).
      rewrite dropped_zero.
      * rewrite sum_mul_l. transitivity (sum c (fun k => rinj N1 * (get Us [i; k] * rinj (nth k sv 0 / N1)%R * get Vs [k; j]))); [ring|]. apply sum_ext. intros k Hk. unfold mat. rewrite GU, GV by assumption.
        rewrite (nth_map_R (Rmult N1) s k) by lia. rewrite Hs' by exact Hk. rewrite rinj_mul. ring.
      * intros k Hk. apply (wtt_exact0 flag sv tol Ht). unfold c in Hk. rewrite wtt_unfold in Hk. rewrite wtt_unfold.
        replace (eff_max sv 0) with (eff_max sv Dmax); [exact Hk|]. unfold eff_max. destruct (Z.leb_spec Dmax 0); [reflexivity|lia].
  - intros i j a b Hi Hj Ha Hb. destruct (Hex Ht HDm) as [_ Hr]. specialize (Hr a b i j Ha Hb Hi Hj). unfold rest in Hr.
    rewrite (cell_after_eye (turned c W J s) c (dB * D) dA dB HdA HdB eq_refl eq_refl eq_refl eq_refl HgB a b i j Hi Hj Hb) in Hr. cbn [ilB ITebdNew.turned] in Hr.
    unfold section in Hr. rewrite LB in Hr. change (cells psi 1) with [iAlA psi; iBlB psi] in Hr.
    assert (Ec : chain [iAlA psi; iBlB psi] [i; j] a b = chain [iAlA psi; iB psi] [i; j] a b * rinj (nth b s 0%R)).
    { rewrite (chain2 (iAlA psi) (iBlB psi) i j a b E c), (chain2 (iAlA psi) (iB psi) i j a b E c); try (unfold dim; rewrite ?EAl, ?EBl; cbn [scale dims mk]; rewrite ?DA, ?DB; reflexivity); try exact Hb.
      rewrite sum_mul_r. apply sum_ext. intros e He'. rewrite EBl, LB. rewrite get_scale by (rewrite DB; apply in_range_3; assumption). cbn [nth]. ring. }
    rewrite Ec in Hr.
    assert (Ia : rinj (nth a s 0%R) * rinj (/ nth a s 0)%R = 1) by (rewrite <- rinj_mul, Rinv_r by (apply Hnz; exact Ha); apply rinj_1).
    assert (Ib : rinj (nth b s 0%R) * rinj (/ nth b s 0)%R = 1) by (rewrite <- rinj_mul, Rinv_r by (apply Hnz; exact Hb); apply rinj_1).
    set (u := chain [iAlA (turned c W J s); iB (turned c W J s)] [i; j] a b) in *. set (w := chain [iAlA psi; iB psi] [i; j] a b) in *.
    transitivity ((rinj (nth a s 0%R) * rinj (/ nth a s 0)%R) * (rinj (nth b s 0%R) * rinj (/ nth b s 0)%R) * u); [rewrite Ia, Ib; ring|].
    transitivity ((rinj (nth a s 0%R) * rinj (/ nth a s 0)%R) * (rinj (nth b s 0%R) * rinj (/ nth b s 0)%R) * (rinj N2 * w)); [|rewrite Ia, Ib; ring].
    transitivity ((rinj (/ nth a s 0)%R * rinj (/ nth b s 0)%R) * (rinj (nth a s 0%R) * u * rinj (nth b s 0%R) - rinj N2 * (rinj (nth a s 0%R) * (w * rinj (nth b s 0%R)))) +
      (rinj (nth a s 0%R) * rinj (/ nth a s 0)%R) * (rinj (nth b s 0%R) * rinj (/ nth b s 0)%R) * (rinj N2 * w)); [ring|]. rewrite Hr. ring.
Qed.
End Cell.
End New.
