(** * C59: the Forest-Ruth solver with TRUNCATE_EACH_LAYER does not respect the maximum bond dimension *)
From Coq Require Import Reals Lra Bool List Arith ZArith Lia Ring Psatz.
From Verif Require Import SvdExist Scalar ScalarFacts RScal RealInst Tensor TensorFacts Spec MpsModel MpsFacts StateFacts HamModel HamFacts CanonSpec CanonModel TruncFacts CanonFacts CanonSweep
  SimplifySpec SimplifyModel SimplifyFacts BondBound SparseSpec TrotterSpec TrotterModel TrotterFacts TrotterApply TrotterRun TrotterLoop TrotterExec TrotterNorm TrotterExp TrotterObc
  OpSpec OpAlgebra OpExp LayerExp PhaseExp Properties_Simplify Properties_SimplifyObc2 Properties_Trotter Properties_Trotter2 Properties_TrotterObc.
Import ListNotations.

Notation T := (@tensor CS).
Notation state := (list T).

(** Two spins with interaction sigma_z sigma_z and the state (|0> + |1>)(|0> + |1>) *)
Definition szsz : T := @mk CS [4; 4]%nat (fun is => match is with [0; 0]%nat | [3; 3]%nat => mkC 1 0 | [1; 1]%nat | [2; 2]%nat => mkC (-1) 0 | _ => mkC 0 0 end).
Definition plus1 : T := @mk CS [1; 2; 1]%nat (fun _ => mkC 1 0).
Definition plus2 : state := [plus1; plus1].
Definition spin (is : list nat) : R := if Nat.eqb (nth 0 is 0%nat) (nth 1 is 0%nat) then 1 else -1.

Lemma szsz_data : @ti_data CS 2 szsz empty.
Proof.
  split; [lia|]. split; [left; split; [reflexivity|apply wf_mk]|]. split; [right; reflexivity|].
  intros (H & _). apply (f_equal (fun t => length (@data CS t))) in H. cbn in H. discriminate H.
Qed.
Lemma pairs_range is : in_range [2; 2]%nat is -> is = [0; 0]%nat \/ is = [0; 1]%nat \/ is = [1; 0]%nat \/ is = [1; 1]%nat.
Proof.
  intros H. apply in_range_cons_inv in H. destruct H as (i & is1 & -> & Hi & H). apply in_range_cons_inv in H. destruct H as (j & is2 & -> & Hj & H). apply in_range_nil_inv in H. subst.
  destruct i as [|[|i]]; try lia; destruct j as [|[|j]]; try lia; auto.
Qed.

(** ** The closest product state to (the state with elements k exp(i theta s_i s_j)) *)
(** In the basis |++>, |-->, |+->, |-+>: x, y, z, w. *)
Lemma closest c s x1 x2 y1 y2 z1 z2 w1 w2 : (Rabs s < c)%R ->
  (x1 * y1 - x2 * y2 = z1 * w1 - z2 * w2)%R -> (x1 * y2 + x2 * y1 = z1 * w2 + z2 * w1)%R ->
  ((c - x1) * (c - x1) + x2 * x2 + y1 * y1 + (s - y2) * (s - y2) + (z1 * z1 + z2 * z2 + w1 * w1 + w2 * w2) <= s * s)%R ->
  x1 = c /\ x2 = 0%R /\ y1 = 0%R /\ y2 = 0%R /\ z1 = 0%R /\ z2 = 0%R /\ w1 = 0%R /\ w2 = 0%R.
Proof.
  intros Hs E1 E2 H.
  set (X := (x1 * x1 + x2 * x2)%R) in *. set (Y := (y1 * y1 + y2 * y2)%R) in *. set (Z := (z1 * z1 + z2 * z2)%R) in *. set (W := (w1 * w1 + w2 * w2)%R) in *.
  assert (HX : (0 <= X)%R) by (unfold X; nra). assert (HY : (0 <= Y)%R) by (unfold Y; nra). assert (HZ : (0 <= Z)%R) by (unfold Z; nra). assert (HW : (0 <= W)%R) by (unfold W; nra).
  assert (EXY : (X * Y = Z * W)%R).
  { transitivity ((x1 * y1 - x2 * y2) * (x1 * y1 - x2 * y2) + (x1 * y2 + x2 * y1) * (x1 * y2 + x2 * y1))%R; [unfold X, Y; ring|]. rewrite E1, E2. unfold Z, W. ring. }
  pose proof (sqrt_pos X) as Px. pose proof (sqrt_pos Y) as Py. pose proof (sqrt_sqrt X HX) as Sx. pose proof (sqrt_sqrt Y HY) as Sy.
  set (mx := sqrt X) in *. set (my := sqrt Y) in *. clearbody mx my.
  assert (Hm : (2 * (mx * my) <= Z + W)%R).
  { assert (Q : ((mx * my) * (mx * my) = Z * W)%R) by (rewrite <- EXY, <- Sx, <- Sy; ring). assert (Q0 : (0 <= mx * my)%R) by nra. destruct (Rle_lt_dec (2 * (mx * my)) (Z + W)) as [|C]; [assumption|]. exfalso.
    pose proof (Rle_0_sqr (Z - W)) as Q1. unfold Rsqr in Q1. nra. }
  assert (Hx1 : (x1 <= mx)%R) by (destruct (Rle_lt_dec x1 mx) as [|C]; [assumption|exfalso; unfold X in Sx; nra]).
  assert (Hy2 : (s * y2 <= Rabs s * my)%R).
  { pose proof (Rabs_pos s) as A0. assert (A : (Rabs y2 <= my)%R).
    { pose proof (Rabs_pos y2) as A1. assert (A2 : (Rabs y2 * Rabs y2 = y2 * y2)%R) by (unfold Rabs; destruct (Rcase_abs y2); ring). destruct (Rle_lt_dec (Rabs y2) my) as [|C]; [assumption|exfalso; unfold Y in Sy; nra]. }
    apply Rle_trans with (Rabs (s * y2)); [apply RRle_abs|]. rewrite Rabs_mult. apply Rmult_le_compat_l; assumption. }
  assert (Hc : (0 < c)%R) by (pose proof (Rabs_pos s); lra).
  assert (F : ((mx + my - c) * (mx + my - c) + 2 * (c - Rabs s) * my + (Z + W - 2 * (mx * my)) + 2 * c * (mx - x1) + 2 * (Rabs s * my - s * y2) <= 0)%R).
  { assert (EX : (X = x1 * x1 + x2 * x2)%R) by reflexivity. assert (EY : (Y = y1 * y1 + y2 * y2)%R) by reflexivity.
    assert (EZ : (Z = z1 * z1 + z2 * z2)%R) by reflexivity. assert (EW : (W = w1 * w1 + w2 * w2)%R) by reflexivity. clearbody X Y Z W. nra. }
  assert (my = 0)%R.
  { destruct (Rle_lt_or_eq_dec 0 my Py) as [C|]; [|congruence]. exfalso. pose proof (Rle_0_sqr (mx + my - c)) as Q. unfold Rsqr in Q.
    assert (0 < (c - Rabs s) * my)%R by (apply Rmult_lt_0_compat; lra). assert (0 <= c * (mx - x1))%R by (apply Rmult_le_pos; lra). nra. }
  subst my. assert (Z + W <= 0)%R by (pose proof (Rle_0_sqr (mx + 0 - c)) as Q; unfold Rsqr in Q; assert (0 <= c * (mx - x1))%R by (apply Rmult_le_pos; lra); nra).
  assert (mx = c)%R. { assert (0 <= c * (mx - x1))%R by (apply Rmult_le_pos; lra). assert (E : ((mx - c) * (mx - c) <= 0)%R) by nra. pose proof (Rle_0_sqr (mx - c)) as Q. unfold Rsqr in Q. assert (E0 : ((mx - c) * (mx - c) = 0)%R) by lra. apply Rmult_integral in E0. lra. }
  subst mx. assert (x1 = c) by nra. subst x1. unfold X in Sx. unfold Y in Sy. unfold Z, W in *. repeat split; nra.
Qed.

Lemma weight2 (f : list nat -> Cx) : @weight CC [2; 2]%nat f =
  (Cre (f [0; 0]%nat) * Cre (f [0; 0]%nat) + Cim (f [0; 0]%nat) * Cim (f [0; 0]%nat) + (Cre (f [0; 1]%nat) * Cre (f [0; 1]%nat) + Cim (f [0; 1]%nat) * Cim (f [0; 1]%nat)) +
   (Cre (f [1; 0]%nat) * Cre (f [1; 0]%nat) + Cim (f [1; 0]%nat) * Cim (f [1; 0]%nat)) + (Cre (f [1; 1]%nat) * Cre (f [1; 1]%nat) + Cim (f [1; 1]%nat) * Cim (f [1; 1]%nat)))%R.
Proof. unfold weight, inner. cbn [sumcfg sum]. cbn. ring. Qed.

Lemma product_amp (P : state) : @open_mps CS P -> pdims P = [2; 2]%nat -> (dim (site P 1) 0 <= 1)%nat ->
  @kmul CS (amp P [0; 0]%nat) (amp P [1; 1]%nat) = @kmul CS (amp P [0; 1]%nat) (amp P [1; 0]%nat).
Proof.
  intros (_ & HL) Hp Hb. destruct P as [|A [|B [|C r]]]; try discriminate.
  cbn [linked] in HL. destruct HL as (i & c & HA & WA & Hi & Hc & j & e & HB & WB & Hj & He & ->).
  unfold site in Hb. cbn [nth] in Hb. unfold dim in Hb. rewrite HB in Hb. cbn [nth] in Hb. assert (c = 1%nat) as -> by lia.
  assert (X : forall a b, @amp CS [A; B] [a; b] = @kmul CS (@get CS A [0; a; 0]%nat) (@get CS B [0; b; 0]%nat)).
  { intros a b. unfold amp, left_bond. cbn [chain]. unfold dim. rewrite HA, HB. cbn [nth sum chain]. generalize (@get CS A [0; a; 0]%nat) (@get CS B [0; b; 0]%nat). intros u v. apply C_ext; cbn; ring. }
  rewrite !X. generalize (@get CS A [0; 0; 0]%nat) (@get CS B [0; 0; 0]%nat) (@get CS A [0; 1; 0]%nat) (@get CS B [0; 1; 0]%nat). intros u v u' v'. apply C_ext; cbn; ring.
Qed.

(** k exp(i theta s_i s_j) *)
Definition phased (k theta : R) (is : list nat) : Cx := mkC (k * cos theta) (k * (sin theta * spin is)).

Lemma closest_product k theta (P : state) : (0 < k)%R -> (Rabs (sin theta) < cos theta)%R -> @open_mps CS P -> pdims P = [2; 2]%nat -> (dim (site P 1) 0 <= 1)%nat ->
  (@dist2 CC [2; 2]%nat (phased k theta) (amp P) <= 4 * (k * sin theta) * (k * sin theta))%R ->
  forall is, in_range [2; 2]%nat is -> amp P is = mkC (k * cos theta) 0.
Proof.
  intros Hk Ht Ho Hp Hb HD. pose proof (product_amp P Ho Hp Hb) as HP. unfold dist2 in HD. rewrite weight2 in HD.
  remember (amp P [0; 0]%nat) as p eqn:Ep. remember (amp P [0; 1]%nat) as q eqn:Eq. remember (amp P [1; 0]%nat) as r eqn:Er. remember (amp P [1; 1]%nat) as t eqn:Et.
  destruct p as [p1 p2], q as [q1 q2], r as [r1 r2], t as [t1 t2].
  pose proof (f_equal Cre HP) as HP1. pose proof (f_equal Cim HP) as HP2. clear HP. unfold phased, spin in HD. cbn in HD, HP1, HP2.
  set (c := (k * cos theta)%R) in *. set (s := (k * sin theta)%R) in *.
  assert (Hcs : (Rabs s < c)%R) by (unfold s, c; rewrite Rabs_mult, (Rabs_right k) by lra; apply Rmult_lt_compat_l; assumption).
  replace (k * (sin theta * 1))%R with s in HD by (unfold s; ring). replace (k * (sin theta * -1))%R with (- s)%R in HD by (unfold s; ring).
  destruct (closest (2 * c) (2 * s) ((p1 + q1 + r1 + t1) / 2) ((p2 + q2 + r2 + t2) / 2) ((p1 - q1 - r1 + t1) / 2) ((p2 - q2 - r2 + t2) / 2)
    ((p1 - q1 + r1 - t1) / 2) ((p2 - q2 + r2 - t2) / 2) ((p1 + q1 - r1 - t1) / 2) ((p2 + q2 - r2 - t2) / 2)) as (A1 & A2 & A3 & A4 & A5 & A6 & A7 & A8).
  - rewrite Rabs_mult, (Rabs_right 2) by lra. lra.
  - nra.
  - nra.
  - nra.
  - intros is Hi. destruct (pairs_range is Hi) as [->|[->|[->| ->]]]; rewrite <- ?Ep, <- ?Eq, <- ?Er, <- ?Et; f_equal; lra.
Qed.

(** An explicit product state at that distance *)
Definition flat (x : R) : state := [@mk CS [1; 2; 1]%nat (fun _ => mkC x 0); plus1].
Lemma flat_ok x : @open_mps CS (flat x) /\ pdims (flat x) = [2; 2]%nat /\ dim (site (flat x) 1) 0 = 1%nat /\
  forall is, in_range [2; 2]%nat is -> amp (flat x) is = mkC x 0.
Proof.
  split; [|split; [reflexivity|split; [reflexivity|]]].
  - split; [discriminate|]. cbn. exists 2%nat, 1%nat. repeat split; try lia. exists 2%nat, 1%nat. repeat split; lia.
  - intros is Hi. destruct (pairs_range is Hi) as [->|[->|[->| ->]]]; apply C_ext; cbn; ring.
Qed.
Lemma flat_dist k theta : @dist2 CC [2; 2]%nat (phased k theta) (amp (flat (k * cos theta))) = (4 * (k * sin theta) * (k * sin theta))%R.
Proof. unfold dist2. rewrite weight2. rewrite !(proj2 (proj2 (proj2 (flat_ok (k * cos theta))))) by (repeat constructor). unfold phased, spin. cbn. ring. Qed.

(** ** The layers of the solver for this Hamiltonian *)
Section Layers.
Variable expm : T -> T.
Hypothesis Hexpm : expm_contract expm.
Variable H : @hamiltonian CS.
Hypothesis HH : @ti_new CS 2 szsz empty false 2 [szsz] [szsz] = Ok H.
Hypothesis HF : @full_terms CC H.
Hypothesis Hds : h_dims H = [2; 2]%nat.
Variable x : R.
Variable us : list (@unitary CC).
Hypothesis Hus : solver_new expm forest_ruth_unitaries H (mkC x 0) = Ok us.

(** the angle of layer n: zero for the layers of local terms *)
Definition angle (n : nat) : R := (- (nth n FR_param 0 * x) * (if Nat.eqb (par forest_ruth_unitaries n) 0 then 1 else 0))%R.

Lemma generator n is js : (n < 4)%nat -> in_range [2; 2]%nat is -> in_range [2; 2]%nat js ->
  @oscl CS (coef forest_ruth_unitaries (mkC x 0) n) (@layer_sum CS (Nat.eqb (par forest_ruth_unitaries n) 0) [2; 2]%nat (fun p => @mat CS (@TrotterFacts.gen CC H p))) is js =
  phase_op (fun is => angle n * spin is)%R is js.
Proof.
  intros Hn Hi Hj. assert (HS : h_size H = 2%nat) by (unfold ti_new in HH; cbn [is_empty empty data szsz] in HH; apply Ok_inj' in HH; subst H; reflexivity).
  assert (G : forall b : bool, @layer_sum CS b [2; 2]%nat (fun p => @mat CS (@TrotterFacts.gen CC H p)) is js = Cmul (mkC (if b then spin is else 0) 0) (@id_op CS is js)).
  { intros b. unfold layer_sum. cbn [length blocks].
    assert (G : forall p, In p (blocks b 0 2) -> @block_op CS [2; 2]%nat p (@mat CS (@TrotterFacts.gen CC H p)) is js = if snd p then Cmul (mkC (spin is) 0) (@id_op CS is js) else mkC 0 0).
    { intros p Hp'. pose proof (blocks_range _ _ _ _ Hp') as Hr. rewrite <- Hds. rewrite <- Hds in Hi, Hj.
      destruct (@gen_ok CC H p is js HF Hi Hj) as (_ & E); [rewrite HS; lia|]. rewrite E. clear E. rewrite Hds in *.
      assert (Hk : fst p = 0%nat \/ fst p = 1%nat /\ snd p = false) by (destruct (snd p); [left|]; lia). unfold ti_new in HH. cbn [is_empty empty data szsz] in HH. apply Ok_inj' in HH. rewrite <- HH. cbn [h_interaction h_local].
      destruct p as (k, bb). cbn [fst snd] in *. destruct (pairs_range is Hi) as [->|[->|[->| ->]]]; destruct (pairs_range js Hj) as [->|[->|[->| ->]]];
        (destruct Hk as [->|(-> & ->)]; [destruct bb|]); unfold spin; apply C_ext; cbn; ring. }
    destruct b; cbn [blocks fold_right] in *.
    - rewrite (G (0%nat, true)) by (left; reflexivity). cbn [snd]. apply C_ext; cbn; ring.
    - rewrite (G (0%nat, false)) by (left; reflexivity). rewrite (G (1%nat, false)) by (right; left; reflexivity). cbn [snd]. apply C_ext; cbn; ring. }
  unfold oscl. rewrite G. unfold phase_op, angle, coef, rotate, cscale.
  destruct n as [|[|[|[|n]]]]; try lia; cbn [par forest_ruth_unitaries nth fst snd Nat.eqb]; set (f := nth _ FR_param 0%R); clearbody f; apply C_ext; cbn; rewrite ?Rmult_0_r, ?Rabs_R0; ring.
Qed.

Lemma layer_value n is js : (n < 4)%nat -> in_range [2; 2]%nat is -> in_range [2; 2]%nat js ->
  layer us forest_ruth_unitaries [2; 2]%nat n is js = Cmul (mkC (cos (angle n)) (sin (angle n) * spin is)) (@id_op CS is js).
Proof.
  intros Hn Hi Hj.
  assert (Hl : Forall (fun p => (fst p <= 1)%nat) forest_ruth_unitaries) by (repeat (constructor; [cbn; lia|]); constructor).
  pose proof (layer_is_exp expm Hexpm forest_ruth_unitaries H (mkC x 0) us n HF Hl Hus Hn) as E. rewrite Hds in E.
  assert (E2 : is_op_exp [2; 2]%nat (phase_op (fun is => angle n * spin is)%R) (layer us forest_ruth_unitaries [2; 2]%nat n)).
  { refine (op_exp_eq [2; 2]%nat _ _ _ _ _ (oeq_refl _ _) E). intros a b Ha Hb. apply generator; assumption. }
  rewrite (phase_exp _ _ _ E2 is js Hi Hj).
  assert (E3 : cos (angle n * spin is) = cos (angle n) /\ sin (angle n * spin is) = (sin (angle n) * spin is)%R).
  { unfold spin. destruct (Nat.eqb (nth 0 is 0%nat) (nth 1 is 0%nat)); [rewrite !Rmult_1_r; auto|]. replace (angle n * -1)%R with (- angle n)%R by ring. split; [apply cos_neg|rewrite sin_neg; ring]. }
  destruct E3 as (-> & ->). reflexivity.
Qed.

Lemma layer_act n (f : list nat -> Cx) k is : (n < 4)%nat -> in_range [2; 2]%nat is -> (forall js, in_range [2; 2]%nat js -> f js = mkC k 0) ->
  @act CS [2; 2]%nat (layer us forest_ruth_unitaries [2; 2]%nat n) f is = phased k (angle n) is.
Proof.
  intros Hn Hi Hf. unfold act.
  transitivity (@sumcfg CS [2; 2]%nat (fun js => Cmul (Cmul (mkC (cos (angle n)) (sin (angle n) * spin is)) (@id_op CS is js)) (mkC k 0))).
  { apply (@sumcfg_ext CS). intros js Hj. rewrite (layer_value n is js Hn Hi Hj), (Hf js Hj). reflexivity. }
  unfold phased. destruct (pairs_range is Hi) as [->|[->|[->| ->]]]; unfold spin; apply C_ext; cbn; ring.
Qed.

(** ** One call of apply_and_simplify() *)
Variable svd : T -> T * list R * T.
Hypothesis Hsvd : @svd_contract CC svd.
Variable flag : R.
Hypothesis H1 : (1 <= flag)%R.
Variable algorithm : bool.
Variable tolerance : R.
Notation simp := (@obc CC svd flag algorithm tolerance).
Notation call n psi Dmax := (@u_apply_and_simplify CC svd flag simp (@u_no CC us n) psi MPS_DEFAULT_TOLERANCE Dmax false).
(** an open state of two spins that is k (|0> + |1>)(|0> + |1>) *)
Definition even_state (k : R) (psi : state) : Prop := @open_mps CS psi /\ pdims psi = [2; 2]%nat /\ forall is, in_range [2; 2]%nat is -> amp psi is = mkC k 0.

Lemma flag_nz : flag <> 0%R.
Proof. intros E. rewrite E in H1. lra. Qed.
Lemma hl : Forall (fun p => (fst p <= 1)%nat) forest_ruth_unitaries.
Proof. repeat (constructor; [cbn; lia|]); constructor. Qed.
Lemma layer_at2 n : (n < 4)%nat -> @layer_ok CC (@u_no CC us n) (par forest_ruth_unitaries n) [2; 2]%nat.
Proof. intros Hn. rewrite <- Hds. apply (layer_at expm Hexpm H (mkC x 0) HF forest_ruth_unitaries hl us Hus n Hn). Qed.

Lemma obc_valid chi Dmax : @open_mps CS chi -> pdims chi = [2; 2]%nat -> @weight CC [2; 2]%nat (amp chi) <> 0%R ->
  @valid_call CC flag algorithm chi [@k1 CS] [chi] [2; 2]%nat 12 (Z.of_nat Dmax) (-1).
Proof.
  intros Ho Hp Hw. assert (HL : length chi = 2%nat) by (rewrite <- length_pdims, Hp; reflexivity).
  split; [discriminate|]. split; [reflexivity|]. split; [intros q [<-|[]]; split; [exact Ho|exact Hp]|]. split; [exact Ho|]. split; [exact Hp|]. split; [discriminate|].
  split; [|split; [right; rewrite HL; lia|]].
  - destruct (@nonzero_weight_cfg CC [2; 2]%nat (amp chi) Hw) as (is & Hi & Hne). exists is. split; [exact Hi|]. rewrite (@combo_one CC). exact Hne.
  - left. unfold truncation, tolerance_used. destruct (one_site algorithm (Z.of_nat Dmax)); [exact flag_nz|]. destruct (Rlt_dec (-1) 0); [exact flag_nz|lra].
Qed.
Lemma obc_no_truncation Dmax : no_truncation (truncation flag algorithm (Z.of_nat Dmax) (-1)).
Proof. right. unfold truncation, tolerance_used. destruct (one_site algorithm (Z.of_nat Dmax)); [exact H1|]. destruct (Rlt_dec (-1) 0); [exact H1|lra]. Qed.

(** the state after apply() and canonical_form() *)
Lemma call_split n psi k Dmax : (n < 4)%nat -> even_state k psi ->
  exists chi, @open_mps CS chi /\ pdims chi = [2; 2]%nat /\ @canonical_at CC 0 chi /\ (forall is, in_range [2; 2]%nat is -> amp chi is = phased k (angle n) is) /\
    call n psi Dmax = bind (if Nat.ltb Dmax (largest_bond_dimension chi) then simp chi Dmax false else Ok (chi, 0%R)) (fun '(P, e) => Ok (P, (-1)%Z, (0 + e)%R)).
Proof.
  intros Hn (Ho & Hp & Ha). pose proof Ho as (Hne & HL). assert (Hlen : (0 < length psi)%nat) by (destruct psi; [congruence|cbn; lia]).
  unfold u_apply_and_simplify.
  assert (Hu : @layer_ok CC (@u_no CC us n) (par forest_ruth_unitaries n) (pdims psi)) by (rewrite Hp; apply layer_at2; exact Hn).
  assert (Ht : (1 <= eff_tol flag MPS_DEFAULT_TOLERANCE)%R) by (rewrite def_tol; exact H1).
  assert (Ht' : eff_tol flag MPS_DEFAULT_TOLERANCE <> 0%R) by (rewrite def_tol; exact flag_nz).
  destruct (@apply_any CC svd flag Hsvd (@u_no CC us n) (par forest_ruth_unitaries n) psi 1 1 1%Z MPS_DEFAULT_TOLERANCE 0 Hu HL ltac:(lia) Hlen (or_introl eq_refl) Ht') as (Q & e & E1 & A1 & A2 & A3 & A4 & A5 & _).
  assert (e = 0%R) by (apply A4; [exact Ht|reflexivity]). subst e. rewrite E1. cbn [bind].
  assert (HlQ : length Q = length psi) by (rewrite <- (length_pdims Q), A2; apply length_pdims).
  destruct (@canonical_form_at_ok CC svd flag Hsvd 1 1 Q 0 A1 ltac:(lia) (or_introl flag_nz) ltac:(lia)) as (chi & E2 & (S1 & S2 & S3 & S4 & S5) & I1 & I2).
  assert (E3 : @canonical_form CC svd flag Q (-1) = Ok chi) by exact E2. rewrite E3. cbn [bind].
  assert (Hlc : length chi = length psi) by (rewrite <- (length_pdims chi), S2, A2; apply length_pdims).
  assert (Hoc : @open_mps CS chi) by (split; [intros X; rewrite X in Hlc; unfold mps in *; cbn [length] in Hlc; clear -Hlc Hlen; lia|exact S1]).
  exists chi. split; [exact Hoc|]. split; [congruence|]. split; [split; [exact I1|intros j Hj; apply I2; lia]|]. split; [|reflexivity].
  intros is Hi. rewrite <- (layer_act n (amp psi) k is Hn Hi Ha).
  rewrite <- Hp in Hi. pose proof (@amp_acted CC 1 psi Q (@u_op CC (@u_no CC us n) (par forest_ruth_unitaries n) (pdims psi)) HL A1 A2 Hne (A5 eq_refl (or_introl eq_refl)) is Hi) as X.
  rewrite Hp in X. transitivity (@amp CS Q is); [|exact X].
  assert (Hneq : Q <> []) by (intros Z0; rewrite Z0 in HlQ; unfold mps in *; cbn [length] in HlQ; clear -HlQ Hlen; lia).
  unfold amp. rewrite (@left_bond_linked CC 1 chi 1 S1 (proj1 Hoc)), (@left_bond_linked CC 1 Q 1 A1 Hneq). apply (@sum_ext CS). intros a Ha'.
  apply S4; [right; exact H1|rewrite A2; exact Hi|exact Ha'].
Qed.
Lemma phased_weight k theta f : k <> 0%R -> (forall is, in_range [2; 2]%nat is -> f is = phased k theta is) -> @weight CC [2; 2]%nat f <> 0%R.
Proof.
  intros Hk Hf. rewrite weight2. rewrite !Hf by (repeat constructor). unfold phased, spin. cbn. pose proof (sin2_cos2 theta) as E. unfold Rsqr in E.
  replace (_ + _ + _ + _)%R with (4 * (k * k) * (sin theta * sin theta + cos theta * cos theta))%R by ring. rewrite E. nra.
Qed.

Lemma combo_dist chi f : @dist2 CC [2; 2]%nat (@combo CC [@k1 CS] [chi]) f = @dist2 CC [2; 2]%nat (amp chi) f.
Proof. unfold dist2, weight, inner. f_equal. apply (@sumcfg_ext CS). intros is Hi. rewrite !(@combo_one CC). reflexivity. Qed.
Lemma dist_eq f g h : (forall is, in_range [2; 2]%nat is -> f is = g is) -> @dist2 CC [2; 2]%nat f h = @dist2 CC [2; 2]%nat g h.
Proof. intros E. unfold dist2, weight, inner. f_equal. apply (@sumcfg_ext CS). intros is Hi. rewrite !E by exact Hi. reflexivity. Qed.

(** Dmax = 1: the closest product state *)
Lemma call_one n psi k : (n < 4)%nat -> (0 < k)%R -> (Rabs (sin (angle n)) < cos (angle n))%R -> even_state k psi ->
  exists P e, call n psi 1 = Ok (P, (-1)%Z, e) /\ even_state (k * cos (angle n)) P.
Proof.
  intros Hn Hk Hs He. destruct (call_split n psi k 1 Hn He) as (chi & Ho & Hp & Hc & Ha & E). rewrite E. clear E.
  assert (HL : length chi = 2%nat) by (rewrite <- length_pdims, Hp; reflexivity).
  destruct (Nat.ltb_spec 1 (largest_bond_dimension chi)) as [Hb|Hb].
  - assert (Hw : @weight CC [2; 2]%nat (amp chi) <> 0%R) by (apply (phased_weight k (angle n)); [lra|exact Ha]).
    pose proof (obc_valid chi 1 Ho Hp Hw) as Hv.
    destruct (C62_returns svd flag Hsvd algorithm tolerance chi [@k1 CS] [chi] [2; 2]%nat (-1) 12 (Z.of_nat 1) (-1) Hv) as (P' & s' & e & m & Ec).
    unfold obc, simplify_obc1. rewrite Ec. cbn [bind]. exists P', (0 + e)%R. split; [reflexivity|].
    destruct (C62_canonical svd flag Hsvd algorithm tolerance chi [@k1 CS] [chi] [2; 2]%nat (-1) 12 (Z.of_nat 1) (-1) Hv P' s' e m Ec) as (O1 & D1 & _).
    destruct (C62_bonds svd flag Hsvd algorithm tolerance chi [@k1 CS] [chi] [2; 2]%nat (-1) 12 (Z.of_nat 1) (-1) Hv P' s' e m Ec) as (B1 & _).
    assert (HL' : length P' = 2%nat) by (rewrite <- length_pdims, D1; reflexivity).
    assert (HB : (dim (site P' 1) 0 <= 1)%nat) by (specialize (B1 ltac:(lia) 1%nat ltac:(lia)); lia).
    split; [exact O1|]. split; [exact D1|]. apply closest_product; try assumption.
    destruct (flat_ok (k * cos (angle n))) as (F1 & F2 & F3 & _).
    assert (H2 : one_site algorithm (Z.of_nat 1) = false) by (unfold one_site; cbn; apply andb_false_r).
    pose proof (C62_two_sites_best svd flag Hsvd algorithm tolerance chi [@k1 CS] [chi] [2; 2]%nat (-1) 12 (Z.of_nat 1) (-1) Hv H2 (obc_no_truncation 1) P' s' e m Ec (flat (k * cos (angle n))) HL F1 F2 ltac:(right; rewrite F3; lia)) as X.
    rewrite !combo_dist in X. rewrite !(dist_eq (amp chi) (phased k (angle n))) in X by exact Ha. rewrite flat_dist in X. exact X.
  - cbn [bind]. exists chi, (0 + 0)%R. split; [reflexivity|]. split; [exact Ho|]. split; [exact Hp|].
    destruct (@largest_bond_spec CS chi (proj1 Ho)) as (Hle & _).
    assert (HB : (dim (site chi 1) 0 <= 1)%nat) by (specialize (Hle 1%nat ltac:(rewrite HL; lia)); lia).
    apply closest_product; try assumption. rewrite (dist_eq (phased k (angle n)) (amp chi)) by (intros is Hi; symmetry; apply Ha; exact Hi).
    unfold dist2. rewrite weight2. replace (@ksub CS) with Csub by reflexivity. cbn. nra.
Qed.

(** Dmax = 0: the layer is applied without truncation *)
Lemma call_free n psi k : (n < 4)%nat -> k <> 0%R -> even_state k psi ->
  exists P e, call n psi 0 = Ok (P, (-1)%Z, e) /\ @open_mps CS P /\ pdims P = [2; 2]%nat /\ forall is, in_range [2; 2]%nat is -> amp P is = phased k (angle n) is.
Proof.
  intros Hn Hk He. destruct (call_split n psi k 0 Hn He) as (chi & Ho & Hp & Hc & Ha & E). rewrite E. clear E.
  assert (HL : length chi = 2%nat) by (rewrite <- length_pdims, Hp; reflexivity).
  destruct (Nat.ltb_spec 0 (largest_bond_dimension chi)) as [Hb|Hb]; [|exists chi, (0 + 0)%R; cbn [bind]; auto].
  assert (Hw : @weight CC [2; 2]%nat (amp chi) <> 0%R) by (apply (phased_weight k (angle n)); [exact Hk|exact Ha]).
  pose proof (obc_valid chi 0 Ho Hp Hw) as Hv.
  destruct (C62_returns svd flag Hsvd algorithm tolerance chi [@k1 CS] [chi] [2; 2]%nat (-1) 12 (Z.of_nat 0) (-1) Hv) as (P' & s' & e & m & Ec).
  unfold obc, simplify_obc1. rewrite Ec. cbn [bind]. exists P', (0 + e)%R. split; [reflexivity|].
  destruct (C62_canonical svd flag Hsvd algorithm tolerance chi [@k1 CS] [chi] [2; 2]%nat (-1) 12 (Z.of_nat 0) (-1) Hv P' s' e m Ec) as (O1 & D1 & _).
  destruct (C62_fixed_point svd flag Hsvd algorithm tolerance chi [@k1 CS] [chi] [2; 2]%nat (-1) 12 (Z.of_nat 0) (-1) Hv P' s' e m Ec (obc_no_truncation 0) ltac:(left; lia) Hc) as (X & _).
  { intros is Hi. rewrite (@combo_one CC). reflexivity. }
  split; [exact O1|]. split; [exact D1|]. intros is Hi. rewrite (X is Hi), (@combo_one CC). apply Ha. exact Hi.
Qed.

(** The step *)
Hypothesis Hsmall : forall n, (n < 4)%nat -> (Rabs (sin (angle n)) < cos (angle n))%R.
Hypothesis Hentangles : sin (angle 0) <> 0%R.
Lemma each_layer_step s : exists psi' s' e, @one_step CC svd flag simp forest_ruth_calls us TruncateEachLayer 1 false (plus2, s) = Ok (psi', s', e) /\
  @open_mps CS psi' /\ pdims psi' = [2; 2]%nat /\ (1 < dim (site psi' 1) 0)%nat.
Proof.
  assert (Hc : forall n, (n < 4)%nat -> (0 < cos (angle n))%R) by (intros n Hn; pose proof (Hsmall n Hn); pose proof (Rabs_pos (sin (angle n))); lra).
  assert (E0 : even_state 1 plus2).
  { split; [|split; [reflexivity|]].
    - split; [discriminate|]. cbn. exists 2%nat, 1%nat. repeat split; try lia. exists 2%nat, 1%nat. repeat split; lia.
    - intros is Hi. destruct (pairs_range is Hi) as [->|[->|[->| ->]]]; apply C_ext; cbn; ring. }
  assert (N : forall n psi k, (n < 4)%nat -> (0 < k)%R -> even_state k psi -> exists P e k', call n psi 1 = Ok (P, (-1)%Z, e) /\ (0 < k')%R /\ even_state k' P).
  { intros n psi k Hn Hk He. destruct (call_one n psi k Hn Hk (Hsmall n Hn) He) as (P & e & E & S). exists P, e, (k * cos (angle n))%R. split; [exact E|]. split; [|exact S].
    apply Rmult_lt_0_compat; [exact Hk|apply Hc; exact Hn]. }
  destruct (N 0%nat plus2 1%R ltac:(lia) ltac:(lra) E0) as (P1 & e1 & k1 & E1 & K1 & S1).
  destruct (N 1%nat P1 k1 ltac:(lia) K1 S1) as (P2 & e2 & k2 & E2 & K2 & S2).
  destruct (N 2%nat P2 k2 ltac:(lia) K2 S2) as (P3 & e3 & k3 & E3 & K3 & S3).
  destruct (N 3%nat P3 k3 ltac:(lia) K3 S3) as (P4 & e4 & k4 & E4 & K4 & S4).
  destruct (N 2%nat P4 k4 ltac:(lia) K4 S4) as (P5 & e5 & k5 & E5 & K5 & S5).
  destruct (call_free 1 P5 k5 ltac:(lia) ltac:(intros X; lra) S5) as (P6 & e6 & E6 & O6 & D6 & A6).
  assert (A1 : angle 1 = 0%R) by (unfold angle; cbn; ring).
  assert (S6 : even_state k5 P6).
  { split; [exact O6|]. split; [exact D6|]. intros is Hi. rewrite (A6 is Hi), A1. unfold phased. rewrite cos_0, sin_0. apply C_ext; cbn; ring. }
  destruct (call_free 0 P6 k5 ltac:(lia) ltac:(intros X; lra) S6) as (P7 & e7 & E7 & O7 & D7 & A7).
  unfold one_step. cbn [Nat.eqb andb].
  assert (EX : exists es, @exec_calls CC svd flag simp us (map fst (forest_ruth_calls TruncateEachLayer 1 false)) (plus2, s) = Ok (P7, (-1)%Z, es)).
  { eexists. cbn [map fst forest_ruth_calls counted exec_calls exec_call snd]. fold (@u_no CC us 0) (@u_no CC us 1) (@u_no CC us 2) (@u_no CC us 3).
    rewrite E1. cbn [bind fst snd]. rewrite E2. cbn [bind fst snd]. rewrite E3. cbn [bind fst snd]. rewrite E4. cbn [bind fst snd]. rewrite E5. cbn [bind fst snd]. rewrite E6. cbn [bind fst snd]. rewrite E7. cbn [bind fst snd]. reflexivity. }
  destruct EX as (es & EX). rewrite EX. cbn [bind]. eexists P7, _, _. split; [reflexivity|]. split; [exact O7|]. split; [exact D7|].
  destruct (Nat.le_gt_cases (dim (site P7 1) 0) 1) as [Hb|Hb]; [exfalso|exact Hb].
  pose proof (product_amp P7 O7 D7 Hb) as X. rewrite !A7 in X by (repeat constructor). apply (f_equal Cim) in X. unfold phased, spin in X. cbn in X.
  assert (Z : (k5 * k5 * (cos (angle 0) * sin (angle 0)) = 0)%R) by lra. pose proof (Hc 0%nat ltac:(lia)) as C0.
  apply Rmult_integral in Z. destruct Z as [Z|Z]; [nra|]. apply Rmult_integral in Z. destruct Z as [Z|Z]; [lra|contradiction].
Qed.
End Layers.

(** C59. DEFECT: with TRUNCATE_EACH_LAYER the last two of the seven calls of ForestRuthSolver::one_step() are made with Dmax = 0
    instead of Dmax.  For two spins with interaction sigma_z sigma_z, a real time step 1/10 and Dmax = 1 the state that is
    returned has a bond of dimension 2, whatever the algorithm and the tolerance of simplify_obc and whatever routines
    compute exponentials and singular values. *)
Theorem C59_each_layer_bonds_refuted (algorithm : bool) (tolerance flag : R) expm svd : expm_contract expm -> @svd_contract CC svd -> (1 <= flag)%R ->
  exists H us psi' s' e, @ti_new CS 2 szsz empty false 2 [szsz] [szsz] = Ok H /\ @full_terms CC H /\ hermitian_terms H /\
    solver_new expm forest_ruth_unitaries H (mkC (1 / 10) 0) = Ok us /\ @open_mps CS plus2 /\ pdims plus2 = h_dims H /\
    @one_step CC svd flag (@obc CC svd flag algorithm tolerance) forest_ruth_calls us TruncateEachLayer 1 false (plus2, 0%Z) = Ok (psi', s', e) /\
    (1 < dim (site psi' 1) 0)%nat.
Proof.
  intros He Hs H1. destruct (@ti_full CC 2 2 szsz empty false [szsz] [szsz] szsz_data ltac:(lia)) as (H & E & HF & HsN & Eds & _). cbn [repeat] in Eds.
  assert (HH : hermitian_terms H).
  { pose proof E as E'. unfold ti_new in E'. cbn [is_empty empty data szsz] in E'. apply Ok_inj' in E'. subst H. split; cbn [h_size h_dim h_local h_interaction].
    - intros k i j _. cbn. intros Hi Hj. destruct i as [|[|i]]; try lia; destruct j as [|[|j]]; try lia; apply C_ext; cbn; ring.
    - intros k i j _. cbn. intros Hi Hj. destruct i as [|[|[|[|i]]]]; try lia; destruct j as [|[|[|[|j]]]]; try lia; apply C_ext; cbn; ring. }
  destruct (solver_new_ok expm forest_ruth_unitaries H (mkC (1 / 10) 0) HF hl) as (us & Eu & _).
  assert (Bound : forall y, (-1 / 4 < y < 1 / 4)%R -> (Rabs (sin y) < cos y)%R).
  { intros y Hy. pose proof PI2_1 as P2. assert (Hc : (0 < cos y)%R) by (apply cos_gt_0; lra).
    assert (Hsin : (Rabs (sin y) <= 1 / 4)%R).
    { destruct (Rtotal_order y 0) as [Hn|[->|Hp]].
      - pose proof (sin_lt_x (- y) ltac:(lra)) as B. rewrite sin_neg in B. assert (0 < sin (- y))%R by (apply sin_gt_0; lra). rewrite sin_neg in *. rewrite Rabs_left by lra. lra.
      - rewrite sin_0, Rabs_R0. lra.
      - pose proof (sin_lt_x y Hp) as B. assert (0 < sin y)%R by (apply sin_gt_0; lra). rewrite Rabs_right by lra. lra. }
    pose proof (sin2_cos2 y) as S. unfold Rsqr in S. pose proof (Rabs_pos (sin y)) as A0.
    assert (A2 : (Rabs (sin y) * Rabs (sin y) = sin y * sin y)%R) by (unfold Rabs; destruct (Rcase_abs (sin y)); ring). nra. }
  destruct (each_layer_step expm He H E HF Eds (1 / 10) us Eu svd Hs flag H1 algorithm tolerance) with (s := 0%Z) as (psi' & s' & e & E1 & _ & _ & B).
  - intros n Hn. apply Bound. unfold angle. destruct n as [|[|[|[|n]]]]; try lia; cbn; lra.
  - intros Z. assert (P : (0 < sin (- angle (1 / 10) 0))%R).
    { pose proof PI2_1 as P2. apply sin_gt_0; unfold angle; cbn; lra. }
    rewrite sin_neg, Z in P. lra.
  - exists H, us, psi', s', e. split; [exact E|]. split; [exact HF|]. split; [exact HH|]. split; [exact Eu|]. split; [|split; [rewrite Eds; reflexivity|auto]].
    split; [discriminate|]. cbn. exists 2%nat, 1%nat. repeat split; try lia. exists 2%nat, 1%nat. repeat split; lia.
Qed.
