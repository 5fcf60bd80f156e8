(** * Wave functions and orthonormality of the canonical form of infinite states *)
From Coq Require Import Reals Lra Bool List Arith ZArith Lia Ring.
From Verif Require Import Scalar ScalarFacts RScal Tensor TensorFacts Spec MpsModel MpsFacts EnvFacts CanonModel CanonSpec CanonFacts CanonSweep SvdExist ITebdModel ITebdSpec ITebdFacts ITebdSlow ITebdSpec2 ITebdGauge ITebdCanon.
Import ListNotations.
Local Open Scope K_scope.

Section Canon.
Context {RS : RScal}.
Add Ring Kring : k_ring.

Lemma bil p n (f f' : nat -> K) (g : nat -> nat -> K) :
  sum n (fun y => kconj (sum p (fun a => f a * g a y)) * sum p (fun a => f' a * g a y)) =
  sum p (fun a => sum p (fun a' => kconj (f a) * f' a' * sum n (fun y => kconj (g a y) * g a' y))).
Proof.
  transitivity (sum n (fun y => sum p (fun a => sum p (fun a' => kconj (f a) * f' a' * (kconj (g a y) * g a' y))))).
  - apply sum_ext. intros y _. rewrite sum_conj, sum_mul_r. apply sum_ext. intros a _. rewrite sum_mul_l. apply sum_ext. intros a' _. rewrite kconj_mul. ring.
  - rewrite sum_swap. apply sum_ext. intros a _. rewrite sum_swap. apply sum_ext. intros a' _. rewrite sum_mul_l. reflexivity.
Qed.

Lemma chain2 A B i j x y m r : dim A 2 = m -> dim B 2 = r -> (y < r)%nat -> chain [A; B] [i; j] x y = sum m (fun c => get A [x; i; c] * get B [c; j; y]).
Proof.
  intros HA HB Hy. cbn [chain]. rewrite HA. apply sum_ext. intros c Hc. f_equal. rewrite HB. apply (sum_delta_r r y (fun c' => get B [c; j; c'])). exact Hy.
Qed.

Variables (psi psi' : itebd) (D E dA dB l : nat) (W Z H J X Y : nat -> nat -> K).
Hypothesis HD : (0 < D)%nat.
Hypothesis HE : (0 < E)%nat.
Hypothesis HdA : (0 < dA)%nat.
Hypothesis HdB : (0 < dB)%nat.
Hypothesis Hl : (0 < l)%nat.
Hypothesis HA : dims (iA psi) = [D; dA; E].
Hypothesis HB : dims (iB psi) = [E; dB; D].
Hypothesis HAl : dims (iAlA psi) = [D; dA; E].
Hypothesis HBl : dims (iBlB psi) = [E; dB; D].
Hypothesis HAw : wf (iAlA psi).
Hypothesis HBw : wf (iBlB psi).
Hypothesis HA' : dims (iA psi') = [l; dA; E].
Hypothesis HB' : dims (iB psi') = [E; dB; l].
Hypothesis HAl' : dims (iAlA psi') = [l; dA; E].
Hypothesis HBl' : dims (iBlB psi') = [E; dB; l].
Hypothesis HAw' : wf (iAlA psi').
Hypothesis HBw' : wf (iBlB psi').
Hypothesis HlB : length (ilB psi) = D.
Hypothesis HlB' : length (ilB psi') = l.
Hypothesis HgB : forall b i a, (b < E)%nat -> (i < dB)%nat -> (a < D)%nat -> get (iBlB psi) [b; i; a] = get (iB psi) [b; i; a] * rinj (nth a (ilB psi) 0%R).
Hypothesis HG : gauge_rel psi psi' D E dA dB l W Z H J X Y.

Let G (b a : nat) : K := sum l (fun y => Z b y * W y a).
Let c1 (is : list nat) : nat -> nat -> K := chain [iAlA psi; iBlB psi] is.
Let cB (is : list nat) : nat -> nat -> K := chain [iAlA psi; iB psi] is.

Lemma cell_in is : in_range [dA; dB] is -> exists i j, is = [i; j] /\ (i < dA)%nat /\ (j < dB)%nat.
Proof. clear. intros Hi. apply in_range_cons_inv in Hi. destruct Hi as (i & is1 & -> & Hi & H1). apply in_range_cons_inv in H1. destruct H1 as (j & is2 & -> & Hj & H2). apply in_range_nil_inv in H2. subst is2. exists i, j. auto. Qed.

Lemma cell_lB is a b : in_range [dA; dB] is -> (b < D)%nat -> c1 is a b = cB is a b * rinj (nth b (ilB psi) 0%R).
Proof.
  intros Hi Hb. destruct (cell_in is Hi) as (i & j & -> & Hi1 & Hj). unfold c1, cB.
  rewrite (chain2 (iAlA psi) (iBlB psi) i j a b E D), (chain2 (iAlA psi) (iB psi) i j a b E D); try (unfold dim; rewrite ?HAl, ?HBl, ?HB; reflexivity); try exact Hb.
  rewrite sum_mul_r. apply sum_ext. intros c Hc. rewrite HgB by assumption. ring.
Qed.

Lemma cell_G is a a' : in_range [dA; dB] is -> (a' < D)%nat -> mm D (c1 is) G a a' = c1 is a a'.
Proof.
  intros Hi Ha'. destruct HG as (_ & _ & _ & _ & G5 & _). unfold mm.
  transitivity (sum D (fun b => c1 is a b * delta b a')); [|apply (sum_delta_r D a' (fun b => c1 is a b)); exact Ha'].
  apply sum_ext. intros b Hb. rewrite (cell_lB is a b Hi Hb). transitivity (cB is a b * (rinj (nth b (ilB psi) 0%R) * G b a')); [ring|].
  unfold G. rewrite G5 by assumption. ring.
Qed.

Lemma cell_rel is x y : in_range [dA; dB] is -> (x < l)%nat -> (y < l)%nat -> chain [iAlA psi'; iBlB psi'] is x y = mm D W (mm D (c1 is) Z) x y.
Proof.
  intros Hi Hx Hy. destruct HG as (G1 & G2 & _). destruct (cell_in is Hi) as (i & j & -> & Hi1 & Hj).
  rewrite (chain2 _ _ i j x y E l); try (unfold dim; rewrite ?HAl', ?HBl'; reflexivity); try exact Hy.
  transitivity (mm E (mm D W (fun a c => get (iAlA psi) [a; i; c])) (mm D (fun c b => get (iBlB psi) [c; j; b]) Z) x y).
  { apply sum_ext. intros c Hc. rewrite G1, G2 by assumption. reflexivity. }
  rewrite mm_assoc. apply mm_ext_r. intros a Ha. rewrite <- mm_assoc. apply mm_ext_l. intros b Hb. unfold c1.
  rewrite (chain2 _ _ i j a b E D); try (unfold dim; rewrite ?HAl, ?HBl; reflexivity); exact Hb.
Qed.

Lemma cell_linked1 : linked D [iAlA psi; iBlB psi] D.
Proof. clear - HD HE HdA HdB HAl HBl HAw HBw. exists dA, E. repeat split; auto. exists dB, D. repeat split; auto. Qed.
Lemma cell_linked2 : linked l [iAlA psi'; iBlB psi'] l.
Proof. clear - Hl HE HdA HdB HAl' HBl' HAw' HBw'. exists dA, E. repeat split; auto. exists dB, l. repeat split; auto. Qed.

Lemma cells_range n is : in_range (cell_dims psi (S n)) is -> exists i1 i2, is = i1 ++ i2 /\ in_range [dA; dB] i1 /\ in_range (cell_dims psi n) i2 /\ length i1 = 2%nat.
Proof.
  clear - HA HB. intros Hi. unfold cell_dims in Hi. cbn [repeat concat app] in Hi.
  apply in_range_cons_inv in Hi. destruct Hi as (i & is1 & -> & Hi & H1). apply in_range_cons_inv in H1. destruct H1 as (j & is2 & -> & Hj & H2).
  exists [i; j], is2. split; [reflexivity|]. split; [|split; [exact H2|reflexivity]].
  unfold dim in Hi, Hj. rewrite HA in Hi. rewrite HB in Hj. apply in_range_2; assumption.
Qed.

Lemma chain_cells_S n i1 i2 a b : length i1 = 2%nat -> (a < D)%nat ->
  chain (cells psi (S n)) (i1 ++ i2) a b = mm D (c1 i1) (chain (cells psi n) i2) a b.
Proof.
  intros L Ha. change (cells psi (S n)) with ([iAlA psi; iBlB psi] ++ cells psi n).
  rewrite (chain_app D _ D _ D); [reflexivity|exact cell_linked1|apply linked_pow; exact cell_linked1|exact L|exact Ha].
Qed.

Lemma cells_G n : forall is a a', in_range (cell_dims psi (S n)) is -> (a < D)%nat -> (a' < D)%nat ->
  mm D (chain (cells psi (S n)) is) G a a' = chain (cells psi (S n)) is a a'.
Proof.
  induction n as [|n IH]; intros is a a' Hi Ha Ha'; destruct (cells_range _ is Hi) as (i1 & i2 & -> & H1 & H2 & L).
  - assert (E0 : forall b, (b < D)%nat -> chain (cells psi 1) (i1 ++ i2) a b = c1 i1 a b).
    { intros b Hb. unfold cell_dims in H2. cbn in H2. apply in_range_nil_inv in H2. subst i2. rewrite app_nil_r. reflexivity. }
    rewrite (mm_ext_l D _ (c1 i1)) by exact E0. rewrite E0 by exact Ha'. apply cell_G; assumption.
  - rewrite chain_cells_S by assumption.
    transitivity (mm D (mm D (c1 i1) (chain (cells psi (S n)) i2)) G a a').
    { apply mm_ext_l. intros k Hk. apply chain_cells_S; assumption. }
    rewrite mm_assoc. apply mm_ext_r. intros k Hk. apply IH; assumption.
Qed.

Lemma cells_rel n : forall is x y, in_range (cell_dims psi (S n)) is -> (x < l)%nat -> (y < l)%nat ->
  chain (cells psi' (S n)) is x y = mm D W (mm D (chain (cells psi (S n)) is) Z) x y.
Proof.
  induction n as [|n IH]; intros is x y Hi Hx Hy; destruct (cells_range _ is Hi) as (i1 & i2 & -> & H1 & H2 & L).
  - unfold cell_dims in H2. cbn in H2. apply in_range_nil_inv in H2. subst i2. rewrite app_nil_r. apply cell_rel; assumption.
  - change (cells psi' (S (S n))) with ([iAlA psi'; iBlB psi'] ++ cells psi' (S n)).
    rewrite (chain_app l _ l _ l); [|exact cell_linked2|apply linked_pow; exact cell_linked2|exact L|exact Hx].
    transitivity (mm l (mm D W (mm D (c1 i1) Z)) (mm D W (mm D (chain (cells psi (S n)) i2) Z)) x y).
    { apply sum_ext. intros k Hk. rewrite cell_rel, IH by assumption. reflexivity. }
    rewrite mm_assoc. apply mm_ext_r. intros a Ha. rewrite mm_assoc.
    transitivity (mm D (c1 i1) (mm D G (mm D (chain (cells psi (S n)) i2) Z)) a y).
    { apply mm_ext_r. intros k Hk. rewrite <- mm_assoc. reflexivity. }
    rewrite <- mm_assoc. transitivity (mm D (c1 i1) (mm D (chain (cells psi (S n)) i2) Z) a y).
    { apply mm_ext_l. intros k Hk. apply cell_G; assumption. }
    rewrite <- mm_assoc. apply mm_ext_l. intros k Hk. symmetry. apply chain_cells_S; assumption.
Qed.

Lemma left_bond_cells n : left_bond (cells psi (S n)) = D /\ left_bond (cells psi' (S n)) = l.
Proof. clear - HAl HAl'. unfold left_bond, cells. cbn [repeat concat app]. unfold dim. rewrite HAl, HAl'. split; reflexivity. Qed.

Lemma gauge_ring n is : in_range (cell_dims psi n) is -> ring psi' n is = ring psi n is.
Proof.
  intros Hi. unfold ring, amp. destruct n as [|n]; [reflexivity|]. destruct (left_bond_cells n) as [-> ->].
  transitivity (sum l (fun x => sum D (fun a => sum D (fun b => W x a * (chain (cells psi (S n)) is a b * Z b x))))).
  { apply sum_ext. intros x Hx. rewrite cells_rel by assumption. unfold mm. apply sum_ext. intros a _. rewrite sum_mul_l. reflexivity. }
  rewrite sum_swap. apply sum_ext. intros a Ha. rewrite <- (cells_G n is a a) by assumption.
  rewrite sum_swap. unfold mm. apply sum_ext. intros b Hb. unfold G. rewrite sum_mul_l. apply sum_ext. intros; ring.
Qed.

Lemma cell_dims_same n : cell_dims psi' n = cell_dims psi n.
Proof. clear - HA HB HA' HB'. unfold cell_dims, dim. rewrite HA, HB, HA', HB'. reflexivity. Qed.
Lemma cell_dims_1 : cell_dims psi 1 = [dA; dB].
Proof. clear - HA HB. unfold cell_dims, dim. rewrite HA, HB. reflexivity. Qed.

Definition gX (a a' : nat) : K := sum D (fun k => X a k * kconj (X a' k)).
Definition gY (a a' : nat) : K := sum D (fun d => kconj (Y a d) * Y a' d).

Lemma gauge_right eta : (forall a a', (a < D)%nat -> (a' < D)%nat -> right_map psi gX a a' = rinj eta * gX a a') -> right_orthonormal psi' eta.
Proof.
  intros HR x x' Hx Hx'. rewrite HlB' in *. rewrite cell_dims_same, cell_dims_1. destruct HG as (_ & _ & _ & _ & _ & _ & G7 & G8 & _).
  change (cells psi' 1) with [iAlA psi'; iBlB psi'].
  rewrite <- (sumcfg_sum_swap [dA; dB] l (fun is b => kconj (chain [iAlA psi'; iBlB psi'] is x b) * chain [iAlA psi'; iBlB psi'] is x' b)).
  transitivity (sumcfg [dA; dB] (fun is => sum D (fun a => sum D (fun a' => kconj (W x a) * W x' a' *
    sum D (fun b' => sum D (fun b => c1 is a' b' * kconj (c1 is a b) * gX b' b)))))).
  { apply sumcfg_ext. intros is Hi.
    transitivity (sum l (fun y => kconj (sum D (fun a => W x a * mm D (c1 is) Z a y)) * sum D (fun a => W x' a * mm D (c1 is) Z a y))).
    { apply sum_ext. intros y Hy. rewrite !cell_rel by assumption. reflexivity. }
    rewrite bil. apply sum_ext. intros a Ha. apply sum_ext. intros a' Ha'. f_equal. unfold mm. 
    transitivity (sum D (fun b => sum D (fun b' => kconj (c1 is a b) * c1 is a' b' * sum l (fun y => kconj (Z b y) * Z b' y)))).
    { transitivity (sum l (fun y => sum D (fun b => sum D (fun b' => kconj (c1 is a b) * c1 is a' b' * (kconj (Z b y) * Z b' y))))).
      - apply sum_ext. intros y _. rewrite sum_conj, sum_mul_r. apply sum_ext. intros b _. rewrite sum_mul_l. apply sum_ext. intros b' _. rewrite kconj_mul. ring.
      - rewrite sum_swap. apply sum_ext. intros b _. rewrite sum_swap. apply sum_ext. intros b' _. rewrite sum_mul_l. reflexivity. }
    rewrite sum_swap. apply sum_ext. intros b' Hb'. apply sum_ext. intros b Hb. rewrite (cell_lB is a' b' Hi Hb').
    transitivity (kconj (c1 is a b) * cB is a' b' * (rinj (nth b' (ilB psi) 0%R) * sum l (fun y => Z b' y * kconj (Z b y)))).
    { transitivity (kconj (c1 is a b) * cB is a' b' * (rinj (nth b' (ilB psi) 0%R) * sum l (fun y => kconj (Z b y) * Z b' y))); [ring|]. do 2 f_equal. apply sum_ext. intros; ring. }
    rewrite G7 by assumption. fold (gX b' b). ring. }
  transitivity (sum D (fun a => sum D (fun a' => kconj (W x a) * W x' a' * right_map psi gX a' a))).
  { rewrite sumcfg_sum_swap. apply sum_ext. intros a Ha. rewrite sumcfg_sum_swap. apply sum_ext. intros a' Ha'. rewrite <- sumcfg_mul_l. f_equal.
    unfold right_map. rewrite HlB, cell_dims_1, sumcfg_sum_swap. apply sum_ext. intros b' Hb'. rewrite sumcfg_sum_swap. apply sum_ext. intros b Hb. rewrite <- sumcfg_mul_r. reflexivity. }
  transitivity (rinj eta * sum D (fun a' => sum D (fun a => W x' a' * gX a' a * kconj (W x a)))).
  { rewrite (sum_swap D D (fun a' a => W x' a' * gX a' a * kconj (W x a))), sum_mul_l. apply sum_ext. intros a Ha. rewrite sum_mul_l. apply sum_ext. intros a' Ha'. rewrite HR by assumption. ring. }
  unfold gX. rewrite G8 by assumption. unfold delta. rewrite Nat.eqb_sym. reflexivity.
Qed.

Lemma left_rel is x y : in_range [dA; dB] is -> (x < l)%nat -> (y < l)%nat ->
  rinj (nth x (ilB psi') 0%R) * chain [iAlA psi'; iB psi'] is x y =
  sum D (fun a => (rinj (nth a (ilB psi) 0%R) * mm D (cB is) J a y) * H x a).
Proof.
  intros Hi Hx Hy. destruct HG as (G1 & _ & G3 & G4 & _). destruct (cell_in is Hi) as (i & j & -> & Hi1 & Hj).
  rewrite (chain2 _ _ i j x y E l); try (unfold dim; rewrite ?HAl', ?HB'; reflexivity); try exact Hy.
  transitivity (rinj (nth x (ilB psi') 0%R) * mm E (mm D W (fun a c => get (iAlA psi) [a; i; c])) (mm D (fun c b => get (iB psi) [c; j; b]) J) x y).
  { f_equal. apply sum_ext. intros c Hc. rewrite G1, G3 by assumption. reflexivity. }
  rewrite mm_assoc. unfold mm at 1. rewrite sum_mul_l. apply sum_ext. intros a Ha.
  transitivity (rinj (nth x (ilB psi') 0%R) * W x a * mm D (cB [i; j]) J a y).
  { rewrite <- mm_assoc. assert (Em : mm D (mm E (fun a c => get (iAlA psi) [a; i; c]) (fun c b => get (iB psi) [c; j; b])) J a y = mm D (cB [i; j]) J a y); [|rewrite Em; ring].
    apply mm_ext_l. intros b Hb. unfold cB.
    rewrite (chain2 _ _ i j a b E D); try (unfold dim; rewrite ?HAl, ?HB; reflexivity); exact Hb. }
  rewrite G4 by assumption. ring.
Qed.

Lemma gauge_left eta : (forall a a', (a < D)%nat -> (a' < D)%nat -> left_map psi gY a a' = rinj eta * gY a a') -> left_orthonormal psi' eta.
Proof.
  intros HL y y' Hy Hy'. rewrite HlB' in *. rewrite cell_dims_same, cell_dims_1. destruct HG as (_ & _ & _ & _ & _ & G6 & _ & _ & G9).
  set (L := fun is a b => rinj (nth a (ilB psi) 0%R) * cB is a b).
  rewrite <- (sumcfg_sum_swap [dA; dB] l (fun is a => kconj (rinj (nth a (ilB psi') 0%R) * chain [iAlA psi'; iB psi'] is a y) * (rinj (nth a (ilB psi') 0%R) * chain [iAlA psi'; iB psi'] is a y'))).
  transitivity (sumcfg [dA; dB] (fun is => sum D (fun b => sum D (fun b' => kconj (J b y) * J b' y' *
    sum D (fun a => sum D (fun a' => kconj (L is a b) * L is a' b' * gY a a')))))).
  { apply sumcfg_ext. intros is Hi.
    transitivity (sum l (fun x => kconj (sum D (fun a => mm D (L is) J a y * H x a)) * sum D (fun a => mm D (L is) J a y' * H x a))).
    { apply sum_ext. intros x Hx. rewrite !left_rel by assumption.
      assert (EL : forall z, sum D (fun a => rinj (nth a (ilB psi) 0%R) * mm D (cB is) J a z * H x a) = sum D (fun a => mm D (L is) J a z * H x a)).
      { intros z. apply sum_ext. intros a _. f_equal. unfold mm, L. rewrite sum_mul_l. apply sum_ext. intros; ring. }
      rewrite !EL. reflexivity. }
    rewrite (bil D l (fun a => mm D (L is) J a y) (fun a => mm D (L is) J a y') (fun a x => H x a)).
    transitivity (sum D (fun a => sum D (fun a' => kconj (mm D (L is) J a y) * mm D (L is) J a' y' * gY a a'))).
    { apply sum_ext. intros a Ha. apply sum_ext. intros a' Ha'.
      assert (E1 : mm D (L is) J a' y' = rinj (nth a' (ilB psi) 0%R) * mm D (cB is) J a' y') by (unfold mm, L; rewrite sum_mul_l; apply sum_ext; intros; ring).
      rewrite E1. transitivity (kconj (mm D (L is) J a y) * mm D (cB is) J a' y' * (sum l (fun x => kconj (H x a) * H x a') * rinj (nth a' (ilB psi) 0%R))); [ring|].
      rewrite G6 by assumption. fold (gY a a'). ring. }
    transitivity (sum D (fun a => sum D (fun a' => sum D (fun b => sum D (fun b' => kconj (J b y) * J b' y' * (kconj (L is a b) * L is a' b' * gY a a')))))).
    { apply sum_ext. intros a _. apply sum_ext. intros a' _. unfold mm. rewrite sum_conj, !sum_mul_r. apply sum_ext. intros b _. rewrite sum_mul_l, sum_mul_r. apply sum_ext. intros b' _. rewrite kconj_mul. ring. }
    transitivity (sum D (fun a => sum D (fun b => sum D (fun a' => sum D (fun b' => kconj (J b y) * J b' y' * (kconj (L is a b) * L is a' b' * gY a a')))))).
    { apply sum_ext. intros a _. apply sum_swap. }
    rewrite sum_swap. apply sum_ext. intros b _.
    transitivity (sum D (fun a => sum D (fun b' => sum D (fun a' => kconj (J b y) * J b' y' * (kconj (L is a b) * L is a' b' * gY a a'))))).
    { apply sum_ext. intros a _. apply sum_swap. }
    rewrite sum_swap. apply sum_ext. intros b' _. rewrite sum_mul_l. apply sum_ext. intros a _. rewrite sum_mul_l. reflexivity. }
  transitivity (sum D (fun b => sum D (fun b' => kconj (J b y) * J b' y' * left_map psi gY b b'))).
  { rewrite sumcfg_sum_swap. apply sum_ext. intros a Ha. rewrite sumcfg_sum_swap. apply sum_ext. intros a' Ha'. rewrite <- sumcfg_mul_l. f_equal.
    unfold left_map. rewrite HlB, cell_dims_1, sumcfg_sum_swap. apply sum_ext. intros b' Hb'. rewrite sumcfg_sum_swap. apply sum_ext. intros b Hb. rewrite <- sumcfg_mul_r. reflexivity. }
  transitivity (rinj eta * sum D (fun b => sum D (fun b' => kconj (J b y) * gY b b' * J b' y'))).
  { rewrite sum_mul_l. apply sum_ext. intros a Ha. rewrite sum_mul_l. apply sum_ext. intros a' Ha'. rewrite HL by assumption. ring. }
  unfold gY. rewrite G9 by assumption. reflexivity.
Qed.

End Canon.
