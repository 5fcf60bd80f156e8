(** * Proofs about the constructor of infinite states from the tensor of a cell *)
From Coq Require Import Reals Lra Bool List Arith ZArith Lia Ring.
From Verif Require QFormFacts SparseFacts.
From Verif Require Import Scalar ScalarFacts RScal Tensor TensorFacts Spec MpsModel MpsFacts EnvFacts CanonModel CanonSpec TruncFacts CanonFacts CanonSweep CanonNorm SplitFacts DecompModel DecompFacts Properties_Decomp LFormFacts LFormValue SvdExist EckartYoung TrotterRun ITebdModel ITebdSpec ITebdFacts ITebdSlow ITebdSpec2 ITebdGauge ITebdCanon ITebdCanon2 ITebdEig ITebdApply ITebdApply2 ITebdNewModel.
Import ListNotations.
Local Open Scope K_scope.

Section New.
Context {RS : RScal}.
Add Ring Kring : k_ring.
Variable svd : tensor -> tensor * list R * tensor.
Variable flag : R.
Variable eigs : (tensor -> tensor) -> nat -> tensor -> tensor.
Variable eig_sym : tensor -> list R * tensor.
Hypothesis Hsvd : svd_contract svd.
Hypothesis Hes : eig_sym_contract eig_sym.

(** ** The split of a canonical cell is apply_operator with the identity *)
Section Split.
Variables (psi : itebd) (D E dA dB : nat).
Hypothesis HD : (0 < D)%nat.
Hypothesis HE : (0 < E)%nat.
Hypothesis HdA : (0 < dA)%nat.
Hypothesis HdB : (0 < dB)%nat.
Hypothesis HA : dims (iA psi) = [D; dA; E].
Hypothesis HB : dims (iB psi) = [E; dB; D].
Hypothesis HlB : length (ilB psi) = D.
Hypothesis HAl : dims (iAlA psi) = [D; dA; E].
Hypothesis HBl : dims (iBlB psi) = [E; dB; D].
Hypothesis HgB : forall b i a, (b < E)%nat -> (i < dB)%nat -> (a < D)%nat -> get (iBlB psi) [b; i; a] = get (iB psi) [b; i; a] * rinj (nth a (ilB psi) 0%R).
Variable G : tensor.
Hypothesis HG : dims G = [D; (dA * dB)%nat; D].
Hypothesis HGg : forall x i j y, (x < D)%nat -> (i < dA)%nat -> (j < dB)%nat -> (y < D)%nat -> get G [x; (i + dA * j)%nat; y] = sum E (fun e => get (iAlA psi) [x; i; e] * get (iB psi) [e; j; y]).

Lemma eye_matrix n : is_matrix (eye n) n n.
Proof. split; [reflexivity|apply wf_mk]. Qed.

Lemma cell_after_eye x z p q : (p < dA)%nat -> (q < dB)%nat -> (z < D)%nat -> cell_after psi (mat (eye (dA * dB))) x z [p; q] =
  rinj (nth x (ilB psi) 0%R) * chain [iAlA psi; iB psi] [p; q] x z * rinj (nth z (ilB psi) 0%R).
Proof.
  clear - HA HB HAl HBl HgB HdA HdB RS. intros Hp Hq Hz.
  unfold cell_after. rewrite (cell_dims_1 psi D E dA dB HA HB). unfold dim. rewrite HA. cbn [nth sumcfg cells_op].
  transitivity (sum dA (fun i => sum dB (fun j => delta p i * (delta q j * section psi 1 x z [i; j])))).
  { apply sum_ext. intros i Hi. apply sum_ext. intros j Hj. unfold mat. rewrite get_eye by nia.
    assert (Ed : delta (p + dA * q) (i + dA * j) = delta p i * delta q j).
    { unfold delta. destruct (Nat.eqb_spec p i) as [Ep|Ep]; destruct (Nat.eqb_spec q j) as [Eq|Eq]; destruct (Nat.eqb_spec (p + dA * q) (i + dA * j)) as [Es|Es]; try ring; exfalso; try (subst; lia); (assert (p = i /\ q = j) as [? ?] by (pose proof (Nat.mod_small p dA Hp); pose proof (Nat.mod_small i dA Hi); pose proof (f_equal (fun x => x mod dA)%nat Es) as Em; pose proof (f_equal (fun x => x / dA)%nat Es) as Ed; cbv beta in Em, Ed; rewrite !(Nat.mul_comm dA), !Nat.mod_add in Em by lia; rewrite !(Nat.mul_comm dA), !Nat.div_add, !Nat.div_small in Ed by lia; lia)); contradiction. }
    rewrite Ed. ring. }
  rewrite (sum_ext dA _ (fun i => delta p i * section psi 1 x z [i; q])). 2:{ intros i Hi. rewrite <- sum_mul_l. f_equal. apply (sum_delta_l' dB q (fun j => section psi 1 x z [i; j])). exact Hq. }
  rewrite (sum_delta_l' dA p (fun i => section psi 1 x z [i; q])) by exact Hp.
  unfold section. change (cells psi 1) with [iAlA psi; iBlB psi].
  rewrite (chain2 (iAlA psi) (iBlB psi) p q x z E D), (chain2 (iAlA psi) (iB psi) p q x z E D); try (unfold dim; rewrite ?HAl, ?HBl, ?HB; reflexivity); try exact Hz.
  transitivity (rinj (nth x (ilB psi) 0%R) * (sum E (fun c => get (iAlA psi) [x; p; c] * get (iB psi) [c; q; z]) * rinj (nth z (ilB psi) 0%R))); [|ring].
  f_equal. rewrite sum_mul_r. apply sum_ext. intros c Hc. rewrite HgB by assumption. ring.
Qed.

Lemma split_even tol Dmax :
  (let G := scale G 0 (ilB psi) in let G := scale G (rank G - 1) (ilB psi) in
   if negb (Nat.eqb (length (data G)) (D * dA * (dB * D))) then Abort else
   bind (limited_svd svd flag (reshape G [(D * dA)%nat; (dB * D)%nat]) tol Dmax) (fun '(pA, lA, pB) =>
     let pA := reshape pA [D; dA; length lA] in
     if negb (Nat.eqb (length (data pB)) (length lA * dA * D)) then Abort else
     let pB := reshape pB [length lA; dA; D] in
     if existsb (fun x => if Req_EM_T x 0 then true else false) (ilB psi) then Abort else
     let A := scale pA 0 (map Rinv (ilB psi)) in let B := scale pB (rank pB - 1) (map Rinv (ilB psi)) in
     Ok (mkI A lA B (ilB psi) (scale A (rank A - 1) lA) (scale B (rank B - 1) (ilB psi)) false)))
  = apply_even svd flag psi (eye (dA * dB)) tol Dmax.
Proof.
  rewrite (apply_even_theta svd flag psi D E dA dB HD HE HdA HdB HA HB HlB HAl HBl HgB (eye (dA * dB)) (eye_matrix _)).
  destruct (theta_ok psi D E dA dB HD HE HdA HdB HA HB HlB HAl HBl HgB (eye (dA * dB)) (eye_matrix _)) as (T1 & T2 & T3).
  cbv zeta. unfold rank at 1 2. cbn [dims scale mk]. rewrite HG. cbn [length Nat.sub].
  set (G2 := scale (scale G 0 (ilB psi)) 2 (ilB psi)).
  assert (Hd2 : dims G2 = [D; (dA * dB)%nat; D]) by exact HG.
  assert (Hw2 : wf G2) by apply wf_mk.
  assert (Hl2 : length (data G2) = (D * dA * (dB * D))%nat). { rewrite Hw2, Hd2. cbn [nprod fold_right]. nia. }
  rewrite Hl2, Nat.eqb_refl. cbn [negb].
  assert (Et : reshape G2 [(D * dA)%nat; (dB * D)%nat] = reshape (theta psi D dA dB (eye (dA * dB))) [(D * dA)%nat; (dB * D)%nat]).
  { apply tensor_ext.
    - apply wf_reshape; [exact Hw2|]. rewrite Hd2. cbn [nprod fold_right]. nia.
    - apply wf_reshape; [exact T2|]. rewrite T1. cbn [nprod fold_right]. nia.
    - reflexivity.
    - cbn [dims reshape]. intros x Hx. apply in_range_cons_inv in Hx. destruct Hx as (r & x' & -> & Hr & Hx). apply in_range_cons_inv in Hx. destruct Hx as (s & x'' & -> & Hs & Hx). apply in_range_nil_inv in Hx. subst x''.
      set (a := (r mod D)%nat). set (i := (r / D)%nat). set (j := (s mod dB)%nat). set (b := (s / dB)%nat).
      assert (Ha : (a < D)%nat) by (apply Nat.mod_upper_bound; lia). assert (Hj : (j < dB)%nat) by (apply Nat.mod_upper_bound; lia).
      assert (Hi : (i < dA)%nat) by (apply Nat.div_lt_upper_bound; lia). assert (Hb : (b < D)%nat) by (apply Nat.div_lt_upper_bound; lia).
      assert (Er : r = (a + D * i)%nat) by (pose proof (Nat.div_mod r D ltac:(lia)); unfold a, i; lia).
      assert (Es : s = (j + dB * b)%nat) by (pose proof (Nat.div_mod s dB ltac:(lia)); unfold j, b; lia).
      clearbody a i j b. subst r s.
      transitivity (get (theta psi D dA dB (eye (dA * dB))) [a; i; j; b]); [|symmetry; apply get_reshape; rewrite T1; cbn [offset]; nia].
      transitivity (get G2 [a; (i + dA * j)%nat; b]); [apply get_reshape; rewrite Hd2; cbn [offset]; nia|].
      rewrite T3 by assumption. rewrite cell_after_eye by assumption. unfold G2.
      rewrite get_scale by (cbn [scale dims mk]; rewrite HG; apply in_range_3; nia). rewrite get_scale by (rewrite HG; apply in_range_3; nia). cbn [nth].
      rewrite HGg by assumption. rewrite (chain2 (iAlA psi) (iB psi) i j a b E D); try (unfold dim; rewrite ?HAl, ?HB; reflexivity); try exact Hb. ring. }
  rewrite Et. destruct (limited_svd svd flag _ tol Dmax) as [[[pA lA] pB]|]; [|reflexivity]. cbn [bind].
  destruct (negb _); [reflexivity|]. destruct (existsb _ _); [reflexivity|].
  unfold new_itebd, rank, dim. cbn [dims scale mk reshape nth length Nat.sub]. rewrite HlB, !Nat.eqb_refl. reflexivity.
Qed.
End Split.

(** ** The cell as an infinite state: the tensor and a matrix of zeros and ones *)
Section Cell.
Variables (AB : tensor) (l : list R) (D dA dB : nat).
Hypothesis HD : (0 < D)%nat.
Hypothesis HdA : (0 < dA)%nat.
Hypothesis HdB : (0 < dB)%nat.
Hypothesis HAB : dims AB = [D; dA; dB; D].
Hypothesis HABw : wf AB.
Hypothesis Hl : length l = D.

Definition cA : tensor := reshape AB [D; dA; (dB * D)%nat].
Definition cB : tensor := mk [(dB * D)%nat; dB; D] (fun x => delta (nth 0 x 0%nat) (nth 1 x 0 + dB * nth 2 x 0)%nat).

(** Other bases W and J to the left and right, and other weights *)
Definition tA (c : nat) (W : nat -> nat -> K) : tensor := mk [c; dA; (dB * D)%nat] (fun x => sum D (fun a => W (nth 0 x 0%nat) a * get cA [a; nth 1 x 0%nat; nth 2 x 0%nat])).
Definition tB (c : nat) (J : nat -> nat -> K) : tensor := mk [(dB * D)%nat; dB; c] (fun x => sum D (fun b => get cB [nth 0 x 0%nat; nth 1 x 0%nat; b] * J b (nth 2 x 0%nat))).
Definition turned (c : nat) (W J : nat -> nat -> K) (s : list R) : itebd :=
  mkI (tA c W) (repeat 1%R (dB * D)) (tB c J) s (tA c W) (scale (tB c J) 2 s) true.
Definition plain : itebd := mkI cA (repeat 1%R (dB * D)) cB l cA (scale cB 2 l) true.

Lemma cA_wf : wf cA.
Proof. apply wf_reshape; [exact HABw|]. rewrite HAB. cbn [nprod fold_right]. nia. Qed.

Lemma cell_plain a i j b : (a < D)%nat -> (i < dA)%nat -> (j < dB)%nat -> (b < D)%nat ->
  sum (dB * D) (fun e => get cA [a; i; e] * get cB [e; j; b]) = get AB [a; i; j; b].
Proof.
  intros Ha Hi Hj Hb. assert (Hq : (j + dB * b < dB * D)%nat) by nia.
  rewrite (sum_ext _ _ (fun e => get cA [a; i; e] * delta e (j + dB * b)%nat)).
  2:{ intros e He. f_equal. unfold cB. rewrite get_mk by (apply in_range_3; assumption). reflexivity. }
  rewrite (sum_delta_r (dB * D) (j + dB * b) (fun e => get cA [a; i; e])) by exact Hq.
  unfold cA. apply get_reshape. rewrite HAB. cbn [offset]. nia.
Qed.

Lemma nth_ones n k : (k < n)%nat -> nth k (repeat 1%R n) 0%R = 1%R.
Proof. revert k. induction n as [|n IH]; intros k Hk; [lia|]. destruct k; [reflexivity|]. cbn. apply IH. lia. Qed.

Lemma plain_wf : wf_itebd plain.
Proof.
  exists D, (dB * D)%nat, dA, dB. cbn [iA iB ilA ilB iAlA iBlB plain]. split; [exact HD|]. split; [nia|]. split; [exact HdA|]. split; [exact HdB|].
  split; [reflexivity|]. split; [exact cA_wf|]. split; [reflexivity|]. split; [apply wf_mk|]. split; [apply repeat_length|]. split; [exact Hl|].
  split; [reflexivity|]. split; [exact cA_wf|]. split; [reflexivity|]. split; [apply wf_mk|]. split.
  - intros a i b Ha Hi Hb. rewrite nth_ones, rinj_1 by exact Hb. ring.
  - intros b i a Hb Hi Ha. apply get_scale. apply in_range_3; assumption.
Qed.
Lemma turned_wf c W J s : (0 < c)%nat -> length s = c -> wf_itebd (turned c W J s).
Proof.
  intros Hc Hs. exists c, (dB * D)%nat, dA, dB. cbn [iA iB ilA ilB iAlA iBlB turned]. split; [exact Hc|]. split; [nia|]. split; [exact HdA|]. split; [exact HdB|].
  split; [reflexivity|]. split; [apply wf_mk|]. split; [reflexivity|]. split; [apply wf_mk|]. split; [apply repeat_length|]. split; [exact Hs|].
  split; [reflexivity|]. split; [apply wf_mk|]. split; [reflexivity|]. split; [apply wf_mk|]. split.
  - intros a i b Ha Hi Hb. rewrite nth_ones, rinj_1 by exact Hb. ring.
  - intros b i a Hb Hi Ha. apply get_scale. apply in_range_3; assumption.
Qed.

Lemma cell_turned c W J x i j y : (x < c)%nat -> (i < dA)%nat -> (j < dB)%nat -> (y < c)%nat ->
  sum (dB * D) (fun e => get (tA c W) [x; i; e] * get (tB c J) [e; j; y]) = sum D (fun a => W x a * sum D (fun b => get AB [a; i; j; b] * J b y)).
Proof.
  intros Hx Hi Hj Hy.
  transitivity (sum (dB * D) (fun e => sum D (fun a => sum D (fun b => W x a * (get cA [a; i; e] * get cB [e; j; b] * J b y))))).
  { apply sum_ext. intros e He. unfold tA, tB. rewrite !get_mk by (apply in_range_3; assumption). cbn [nth]. rewrite sum_mul_r. apply sum_ext. intros a Ha. rewrite sum_mul_l. apply sum_ext. intros; ring. }
  rewrite sum_swap. apply sum_ext. intros a Ha. rewrite sum_swap, sum_mul_l. apply sum_ext. intros b Hb. rewrite <- sum_mul_l. f_equal.
  rewrite <- sum_mul_r. f_equal. apply cell_plain; assumption.
Qed.

(** What the constructor does: two bases, their singular value decomposition, and the split *)
Definition G3 : tensor := reshape AB [D; (dA * dB)%nat; D].
Definition vright : tensor := itebd_power_eig1 eigs (scale G3 2 l) (-1).
Definition vleft : tensor := itebd_power_eig1 eigs (scale G3 0 l) 1.
Definition overlap (X Y : tensor) : tensor := fold Y 0 (scale X 0 l) 0.

Lemma overlap_ok X Y : is_matrix X D D -> is_matrix Y D D ->
  is_matrix (overlap X Y) D D /\ forall i j, (i < D)%nat -> (j < D)%nat -> get (overlap X Y) [i; j] = gaux D (mat X) (mat Y) (fun k => nth k l 0%R) i j.
Proof.
  intros (HX & _) (HY & _). unfold overlap. split.
  - split; [unfold fold; rewrite dims_mk, HY; cbn [scale dims mk remove_nth]; rewrite HX; reflexivity|apply wf_mk].
  - intros i j Hi Hj. unfold fold. rewrite get_mk.
    + unfold rank, dim. rewrite HY. cbn [length nth firstn skipn insert_nth Nat.sub app]. unfold gaux, mm. apply sum_ext. intros k Hk. unfold tp, glX, mat.
      rewrite get_scale by (rewrite HX; apply in_range_2; assumption). cbn [nth]. ring.
    + rewrite HY. cbn [scale dims mk remove_nth]. rewrite HX. cbn. apply in_range_2; assumption.
Qed.

Lemma bases_sized : eigs_sized eigs -> (is_matrix vright D D /\ herm D (fun i j => get vright [i; j])) /\ (is_matrix vleft D D /\ herm D (fun i j => get vleft [i; j])).
Proof.
  intros He. split.
  - unfold vright, itebd_power_eig1. cbv zeta. change (dim (scale G3 2 l) 2) with D. set (v := eigs _ _ _). destruct (He _ _ _ : dims v = _ /\ wf v) as [H1 H2].
    destruct (herm_part D v H1 H2) as (E1 & E2 & _). split; [exact E1|exact E2].
  - unfold vleft, itebd_power_eig1. cbv zeta. change (dim (scale G3 0 l) 2) with D. set (v := eigs _ _ _). destruct (He _ _ _ : dims v = _ /\ wf v) as [H1 H2].
    destruct (herm_part D v H1 H2) as (E1 & E2 & _). split; [exact E1|exact E2].
Qed.

Lemma new_cell_steps tol Dmax : eigs_sized eigs ->
  new_cell svd flag eigs eig_sym AB l tol Dmax =
  bind (ortho_basis eig_sym vright) (fun '(X, Xi) => bind (ortho_basis eig_sym vleft) (fun '(Y, Yi) =>
  bind (limited_svd svd flag (overlap X Y) tol Dmax) (fun '(U, s, V) =>
    apply_even svd flag (turned (length s) (gW D (mat Xi) (mat V)) (gJ D (mat Yi) (mat U)) s) (eye (dA * dB)) tol Dmax))).
Proof.
  intros He. destruct (bases_sized He) as [[R1 R2] [L1 L2]].
  unfold new_cell, split_tensor_any. unfold rank at 1. rewrite HAB. cbn [length Nat.eqb negb]. cbv zeta.
  unfold dim. rewrite HAB. cbn [nth]. fold G3. unfold canonical_form1.
  assert (Er : ortho_right1 eigs eig_sym G3 l = ortho_basis eig_sym vright) by reflexivity.
  assert (El : ortho_left1 eigs eig_sym G3 l = ortho_basis eig_sym vleft) by reflexivity.
  rewrite Er, El. destruct (ortho_basis eig_sym vright) as [[X Xi]|] eqn:EX; [|reflexivity]. cbn [bind].
  destruct (ortho_basis eig_sym vleft) as [[Y Yi]|] eqn:EY; [|reflexivity]. cbn [bind]. cbv zeta. fold (overlap X Y).
  destruct (ortho_basis_ok eig_sym Hes D vright X Xi HD R1 R2 EX) as (HX & HXi & X1 & X2 & _).
  destruct (ortho_basis_ok eig_sym Hes D vleft Y Yi HD L1 L2 EY) as (HY & HYi & Y1 & Y2 & _).
  destruct (overlap_ok X Y HX HY) as [Ho _].
  destruct (zero_dec (D * D) (fun x => get (overlap X Y) [x mod D; x / D]%nat)) as [Hz|(x & Hx & Hz)].
  { rewrite (limited_svd_zero svd flag Hsvd (overlap X Y) D D); try assumption; [reflexivity|].
    intros i j Hi Hj. specialize (Hz (i + D * j)%nat ltac:(nia)). cbv beta in Hz.
    rewrite (Nat.mul_comm D j), Nat.mod_add, Nat.div_add, Nat.mod_small, Nat.div_small in Hz by lia. exact Hz. }
  destruct (limited_svd_ok svd flag Hsvd (overlap X Y) D D tol Dmax Ho HD HD) as (Us & sv & Vs & Es & Hs & H).
  { exists (x mod D)%nat, (x / D)%nat. split; [apply Nat.mod_upper_bound; lia|]. split; [|exact Hz]. apply Nat.div_lt_upper_bound; lia. }
  cbv zeta in H. destruct H as ((Hc0 & Hc1) & _ & _ & _ & _ & U & s & V & Elim & HU & HV & Hls & _).
  rewrite Elim. cbn [bind]. set (c := where_to_truncate flag sv tol Dmax) in *. rewrite Hls.
  set (T := turned c (gW D (mat Xi) (mat V)) (gJ D (mat Yi) (mat U)) s).
  assert (HG1 : dims (fold G3 (rank G3 - 1) Yi (rank Yi - 1)) = [D; (dA * dB)%nat; D]).
  { destruct HYi as (HYi & _). unfold fold, rank. rewrite HYi. reflexivity. }
  assert (gG1 : forall a p d, (a < D)%nat -> (p < dA * dB)%nat -> (d < D)%nat -> get (fold G3 (rank G3 - 1) Yi (rank Yi - 1)) [a; p; d] = sum D (fun b => get G3 [a; p; b] * get Yi [d; b])).
  { intros a p d Ha Hp Hd. destruct HYi as (HYi & _). unfold fold. rewrite get_mk.
    - unfold rank, dim. rewrite HYi. reflexivity.
    - unfold rank. rewrite HYi. cbn. apply in_range_3; assumption. }
  set (G1 := fold G3 (rank G3 - 1) Yi (rank Yi - 1)) in *.
  assert (HG2 : dims (fold Xi (rank Xi - 1) G1 0) = [D; (dA * dB)%nat; D]) by (apply (dims_fold_VB Xi G1 D D); assumption).
  set (G2 := fold Xi (rank Xi - 1) G1 0) in *.
  assert (HG3' : dims (fold V (rank V - 1) G2 0) = [c; (dA * dB)%nat; D]) by (apply (dims_fold_VB V G2 c D); assumption).
  set (G4 := fold V (rank V - 1) G2 0) in *.
  assert (HG5 : dims (fold G4 (rank G4 - 1) U 0) = [c; (dA * dB)%nat; c]) by (apply (dims_fold_BV U G4 c D); assumption).
  assert (gG5 : forall x i j y, (x < c)%nat -> (i < dA)%nat -> (j < dB)%nat -> (y < c)%nat ->
    get (fold G4 (rank G4 - 1) U 0) [x; (i + dA * j)%nat; y] = sum (dB * D) (fun e => get (iAlA T) [x; i; e] * get (iB T) [e; j; y])).
  { intros x' i j y Hx' Hi Hj Hy. assert (Hp : (i + dA * j < dA * dB)%nat) by nia.
    transitivity (sum D (fun a => gW D (mat Xi) (mat V) x' a * sum D (fun b => get AB [a; i; j; b] * gJ D (mat Yi) (mat U) b y))); [|symmetry; apply cell_turned; assumption].
    rewrite (get_fold_BV U G4 c D (dA * dB) c) by assumption.
    transitivity (sum D (fun d => sum D (fun a => gW D (mat Xi) (mat V) x' a * sum D (fun b => get AB [a; i; j; b] * (get Yi [d; b] * get U [d; y]))))).
    { apply sum_ext. intros d Hd. unfold G4. rewrite (get_fold_VB V G2 c D (dA * dB) D) by assumption.
      transitivity (sum D (fun z => sum D (fun a => get V [x'; z] * get Xi [z; a] * get G1 [a; (i + dA * j)%nat; d]) * get U [d; y])).
      { rewrite sum_mul_r. apply sum_ext. intros z Hz'. f_equal. unfold G2. rewrite (get_fold_VB Xi G1 D D (dA * dB) D) by assumption. rewrite sum_mul_l. apply sum_ext. intros; ring. }
      transitivity (sum D (fun a => sum D (fun z => get V [x'; z] * get Xi [z; a]) * (get G1 [a; (i + dA * j)%nat; d] * get U [d; y]))).
      { transitivity (sum D (fun z => sum D (fun a => get V [x'; z] * get Xi [z; a] * (get G1 [a; (i + dA * j)%nat; d] * get U [d; y])))).
        - apply sum_ext. intros z Hz'. rewrite sum_mul_r. apply sum_ext. intros; ring.
        - rewrite sum_swap. apply sum_ext. intros a Ha. rewrite sum_mul_r. reflexivity. }
      apply sum_ext. intros a Ha. f_equal. rewrite gG1, sum_mul_r by assumption. apply sum_ext. intros b Hb.
      assert (Eg : get G3 [a; (i + dA * j)%nat; b] = get AB [a; i; j; b]) by (unfold G3; apply get_reshape; rewrite HAB; cbn [offset]; nia).
      rewrite Eg. ring. }
    rewrite sum_swap. apply sum_ext. intros a Ha. rewrite <- sum_mul_l. f_equal. rewrite sum_swap. apply sum_ext. intros b Hb. rewrite <- sum_mul_l. f_equal. }
  set (G5 := fold G4 (rank G4 - 1) U 0) in *.
  rewrite <- (split_even T c (dB * D) dA dB Hc0 ltac:(nia) HdA HdB eq_refl eq_refl Hls eq_refl eq_refl) with (G := G5).
  - cbn [ilB turned T]. unfold T. cbn [ilB turned]. cbv zeta.
    destruct (negb _); [reflexivity|]. destruct (limited_svd _ _ (reshape _ _) _ _) as [[[pA lA] pB]|]; [|reflexivity]. cbn [bind]. destruct (negb _); [reflexivity|]. destruct (existsb _ _); reflexivity.
  - intros b i a Hb Hi Ha. apply get_scale. apply in_range_3; assumption.
  - exact HG5.
  - exact gG5.
Qed.
End Cell.
End New.
