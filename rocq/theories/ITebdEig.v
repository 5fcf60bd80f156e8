(** * The eigenvectors computed for the canonical form of infinite states *)
From Coq Require Import Reals Lra Bool List Arith ZArith Lia Ring.
From Verif Require Import Scalar ScalarFacts RScal Tensor TensorFacts Spec MpsModel MpsFacts EnvFacts CanonModel CanonSpec CanonFacts CanonSweep SplitFacts LFormFacts LFormValue SvdExist ITebdModel ITebdSpec ITebdFacts ITebdSlow ITebdSpec2 ITebdGauge ITebdCanon ITebdCanon2.
Import ListNotations.
Local Open Scope K_scope.

Section Eig.
Context {RS : RScal}.
Add Ring Kring : k_ring.

Lemma px4_left v A B D E dA dB x y : (0 < D)%nat -> (0 < E)%nat -> (0 < dA)%nat -> (0 < dB)%nat -> dims v = [(D * D)%nat] -> wf v ->
  dims A = [D; dA; E] -> wf A -> dims B = [E; dB; D] -> wf B -> (x < D)%nat -> (y < D)%nat ->
  get (px4 v (-1) B A D) [(x + D * y)%nat] =
  sum D (fun b => sum D (fun b' => sumcfg [dA; dB] (fun is => chain [A; B] is y b * kconj (chain [A; B] is x b')) * get v [(b' + D * b)%nat])).
Proof.
  intros HD HE HdA HdB Hv Hvw HA HAw HB HBw Hx Hy. unfold px4.
  set (v0 := reshape v [D; D]). set (v4 := reshape v0 [D; D; 1%nat; 1%nat]).
  assert (Hw0 : wf v0) by (apply wf_reshape; [exact Hvw|rewrite Hv; cbn; lia]).
  assert (E0 : is_empty v0 = false) by (apply is_empty_wf; [exact Hw0|cbn; nia]).
  assert (M1 : prop_matrix v0 (-1) B B None = prop_left4 v4 B B None).
  { unfold prop_matrix, prop_left. rewrite E0. reflexivity. }
  rewrite M1.
  assert (Hd1 : dims (prop_left4 v4 B B None) = [E; E; 1%nat; 1%nat]) by (eapply prop_left4_dims; [reflexivity|exact HB|exact HB]).
  assert (Hw1 : wf (prop_left4 v4 B B None)) by (unfold prop_left4; apply wf_mk).
  assert (E1' : is_empty (prop_left4 v4 B B None) = false) by (apply is_empty_wf; [exact Hw1|rewrite Hd1; cbn; nia]).
  assert (M2 : prop_matrix (prop_left4 v4 B B None) (-1) A A None = prop_left4 (prop_left4 v4 B B None) A A None).
  { unfold prop_matrix, prop_left. rewrite E1'. unfold rank. rewrite Hd1. reflexivity. }
  rewrite M2. assert (Hd2 : dims (prop_left4 (prop_left4 v4 B B None) A A None) = [D; D; 1%nat; 1%nat]) by (eapply prop_left4_dims; [exact Hd1|exact HA|exact HA]).
  rewrite (get_reshape _ _ _ [x; y; 0%nat; 0%nat]) by (rewrite Hd2; cbn; ring).
  rewrite (prop_left4_get _ A A None 1 1 E E D dA D dA) by (auto; try reflexivity).
  transitivity (sum E (fun a => sum E (fun b => sum D (fun c => sum D (fun d => E1 A A None x y a b * E1 B B None a b c d * get v [(c + D * d)%nat]))))).
  { apply sum_ext. intros a Ha. apply sum_ext. intros b Hb. rewrite (prop_left4_get v4 B B None 1 1 D D E dB E dB) by (auto; try reflexivity).
    rewrite sum_mul_l. apply sum_ext. intros c Hc. rewrite sum_mul_l. apply sum_ext. intros d Hd.
    assert (Eg : get v4 [c; d; 0%nat; 0%nat] = get v [(c + D * d)%nat]).
    { unfold v4, v0. rewrite (get_reshape _ _ _ [c; d]) by (cbn; lia). apply get_reshape. rewrite Hv. cbn. lia. }
    rewrite Eg. ring. }
  transitivity (sum D (fun c => sum D (fun d => TM [A; B] [A; B] [None; None] x y c d * get v [(c + D * d)%nat]))).
  { transitivity (sum D (fun c => sum D (fun d => sum E (fun a => sum E (fun b => E1 A A None x y a b * E1 B B None a b c d * get v [(c + D * d)%nat]))))).
    { transitivity (sum E (fun a => sum D (fun c => sum D (fun d => sum E (fun b => E1 A A None x y a b * E1 B B None a b c d * get v [(c + D * d)%nat]))))).
      { apply sum_ext. intros a _. rewrite sum_swap. apply sum_ext. intros c _. apply sum_swap. }
      rewrite sum_swap. apply sum_ext. intros c _. apply sum_swap. }
    apply sum_ext. intros c Hc. apply sum_ext. intros d Hd.
    change [A; B] with ([A] ++ [B]). change [@None tensor; None] with ([@None tensor] ++ [None]).
    rewrite (TM_app D D [A] [A] [None] E E [B] [B] [None] D D x y c d); [|exists dA, E; repeat split; auto|exists dA, E; repeat split; auto|exists dB, D; repeat split; auto|exists dB, D; repeat split; auto|split; [reflexivity|exact I]|exact Hx|exact Hy].
    rewrite sum_mul_r. apply sum_ext. intros a Ha. rewrite sum_mul_r. apply sum_ext. intros b Hb.
    rewrite (TM_single A A None x y a b _ _ _ _ _ _ HA HA Ha Hb), (TM_single B B None a b c d _ _ _ _ _ _ HB HB Hc Hd). reflexivity. }
  rewrite sum_swap. apply sum_ext. intros b Hb. apply sum_ext. intros b' Hb'. f_equal.
  transitivity (TM [A; B] [A; B] (nones (length [A; B])) x y b' b); [reflexivity|]. rewrite TM_id by reflexivity. unfold pdims, dim. cbn [map]. rewrite HA, HB. cbn [nth]. apply sumcfg_ext. intros is _. ring.
Qed.

Lemma px4_right v A B D E dA dB x y : (0 < D)%nat -> (0 < E)%nat -> (0 < dA)%nat -> (0 < dB)%nat -> dims v = [(D * D)%nat] -> wf v ->
  dims A = [D; dA; E] -> wf A -> dims B = [E; dB; D] -> wf B -> (x < D)%nat -> (y < D)%nat ->
  get (px4 v 1 A B D) [(x + D * y)%nat] =
  sum D (fun a => sum D (fun a' => sumcfg [dA; dB] (fun is => kconj (chain [A; B] is a x) * chain [A; B] is a' y) * get v [(a + D * a')%nat])).
Proof.
  intros HD HE HdA HdB Hv Hvw HA HAw HB HBw Hx Hy. unfold px4.
  set (v0 := reshape v [D; D]). set (v4 := reshape v0 [1%nat; 1%nat; D; D]).
  assert (Hw0 : wf v0) by (apply wf_reshape; [exact Hvw|rewrite Hv; cbn; lia]).
  assert (E0 : is_empty v0 = false) by (apply is_empty_wf; [exact Hw0|cbn; nia]).
  assert (M1 : prop_matrix v0 1 A A None = prop_right4 v4 A A None).
  { unfold prop_matrix, prop_right. rewrite E0. reflexivity. }
  rewrite M1.
  assert (Hd1 : dims (prop_right4 v4 A A None) = [1%nat; 1%nat; E; E]) by (eapply prop_right4_dims; [reflexivity|exact HA|exact HA]).
  assert (Hw1 : wf (prop_right4 v4 A A None)) by (unfold prop_right4; apply wf_mk).
  assert (E1' : is_empty (prop_right4 v4 A A None) = false) by (apply is_empty_wf; [exact Hw1|rewrite Hd1; cbn; nia]).
  assert (M2 : prop_matrix (prop_right4 v4 A A None) 1 B B None = prop_right4 (prop_right4 v4 A A None) B B None).
  { unfold prop_matrix, prop_right. rewrite E1'. unfold rank. rewrite Hd1. reflexivity. }
  rewrite M2. assert (Hd2 : dims (prop_right4 (prop_right4 v4 A A None) B B None) = [1%nat; 1%nat; D; D]) by (eapply prop_right4_dims; [exact Hd1|exact HB|exact HB]).
  rewrite (get_reshape _ _ _ [0%nat; 0%nat; x; y]) by (rewrite Hd2; cbn; ring).
  rewrite (prop_right4_get _ B B None 1 1 E E dB D dB D) by (auto; try reflexivity).
  transitivity (sum E (fun a => sum E (fun b => sum D (fun c => sum D (fun d => E1 A A None c d a b * E1 B B None a b x y * get v [(c + D * d)%nat]))))).
  { apply sum_ext. intros a Ha. apply sum_ext. intros b Hb. rewrite (prop_right4_get v4 A A None 1 1 D D dA E dA E) by (auto; try reflexivity).
    rewrite sum_mul_r. apply sum_ext. intros c Hc. rewrite sum_mul_r. apply sum_ext. intros d Hd.
    assert (Eg : get v4 [0%nat; 0%nat; c; d] = get v [(c + D * d)%nat]).
    { unfold v4, v0. rewrite (get_reshape _ _ _ [c; d]) by (cbn; lia). apply get_reshape. rewrite Hv. cbn. lia. }
    rewrite Eg. ring. }
  transitivity (sum D (fun c => sum D (fun d => TM [A; B] [A; B] [None; None] c d x y * get v [(c + D * d)%nat]))).
  { transitivity (sum D (fun c => sum D (fun d => sum E (fun a => sum E (fun b => E1 A A None c d a b * E1 B B None a b x y * get v [(c + D * d)%nat]))))).
    { transitivity (sum E (fun a => sum D (fun c => sum D (fun d => sum E (fun b => E1 A A None c d a b * E1 B B None a b x y * get v [(c + D * d)%nat]))))).
      { apply sum_ext. intros a _. rewrite sum_swap. apply sum_ext. intros c _. apply sum_swap. }
      rewrite sum_swap. apply sum_ext. intros c _. apply sum_swap. }
    apply sum_ext. intros c Hc. apply sum_ext. intros d Hd.
    change [A; B] with ([A] ++ [B]). change [@None tensor; None] with ([@None tensor] ++ [None]).
    rewrite (TM_app D D [A] [A] [None] E E [B] [B] [None] D D c d x y); [|exists dA, E; repeat split; auto|exists dA, E; repeat split; auto|exists dB, D; repeat split; auto|exists dB, D; repeat split; auto|split; [reflexivity|exact I]|exact Hc|exact Hd].
    rewrite sum_mul_r. apply sum_ext. intros a Ha. rewrite sum_mul_r. apply sum_ext. intros b Hb.
    rewrite (TM_single A A None c d a b _ _ _ _ _ _ HA HA Ha Hb), (TM_single B B None a b x y _ _ _ _ _ _ HB HB Hx Hy). reflexivity. }
  apply sum_ext. intros a Ha. apply sum_ext. intros a' Ha'. f_equal.
  transitivity (TM [A; B] [A; B] (nones (length [A; B])) a a' x y); [reflexivity|]. rewrite TM_id by reflexivity. unfold pdims, dim. cbn [map]. rewrite HA, HB. reflexivity.
Qed.

(** Matrices as vectors *)
Lemma merge_inv D k : (0 < D)%nat -> (k < D * D)%nat -> exists x y, (x < D)%nat /\ (y < D)%nat /\ k = (x + D * y)%nat.
Proof.
  intros HD Hk. exists (k mod D)%nat, (k / D)%nat. pose proof (Nat.mod_upper_bound k D ltac:(lia)). pose proof (Nat.div_mod k D ltac:(lia)).
  split; [lia|]. split; [apply Nat.div_lt_upper_bound; lia|lia].
Qed.

(** eigs finds the dominant eigenvector of a map of matrices *)
Lemma eigs_dominant eigs D (f : tensor -> tensor) F (el : tensor -> nat -> nat -> K) (off : nat -> nat -> nat) eta P v0 :
  eigs_largest eigs -> (0 < D)%nat ->
  (forall k, (k < D * D)%nat -> exists a b, (a < D)%nat /\ (b < D)%nat /\ off a b = k) ->
  (forall a b, (a < D)%nat -> (b < D)%nat -> (off a b < D * D)%nat) ->
  (forall a b a' b', (a < D)%nat -> (b < D)%nat -> (a' < D)%nat -> (b' < D)%nat -> off a b = off a' b' -> a = a' /\ b = b') ->
  (forall v a b, el v a b = get v [off a b]) ->
  (forall M M' a b, (forall i j, (i < D)%nat -> (j < D)%nat -> M i j = M' i j) -> (a < D)%nat -> (b < D)%nat -> F M a b = F M' a b) ->
  (forall v a b, dims v = [(D * D)%nat] -> wf v -> (a < D)%nat -> (b < D)%nat -> el (f v) a b = F (el v) a b) ->
  dominates D F eta P ->
  let v := eigs f (D * D)%nat v0 in
  largest_eigen (D * D) f v /\ dims v = [(D * D)%nat] /\ wf v /\ exists c, c <> 0 /\ forall a b, (a < D)%nat -> (b < D)%nat -> el v a b = c * P a b.
Proof.
  intros He HD Hon Hin Hinj Hel Fext Hf (HP & Hmax) v.
  assert (Htwo : forall w mu, vec_eigen (D * D) f mu w <-> (dims w = [(D * D)%nat] /\ wf w /\ eigenvector D F mu (el w))).
  { intros w mu. split.
    - intros (W1 & W2 & (k & Hk & Wk) & W4). split; [exact W1|]. split; [exact W2|]. split.
      + destruct (Hon k Hk) as (a & b & Ha & Hb & <-). exists a, b. rewrite Hel. auto.
      + intros a b Ha Hb. rewrite <- (Hf w a b W1 W2 Ha Hb). rewrite !Hel. apply W4. apply Hin; assumption.
    - intros (W1 & W2 & (a & b & Ha & Hb & Wk) & W4). split; [exact W1|]. split; [exact W2|]. split.
      + exists (off a b). split; [apply Hin; assumption|]. rewrite <- Hel. exact Wk.
      + intros k Hk. destruct (Hon k Hk) as (i & j & Hi & Hj & <-). rewrite <- !Hel. rewrite (Hf w i j W1 W2 Hi Hj). apply W4; assumption. }
  (* the dominant eigenvector as a vector *)
  assert (HvP : exists w, dims w = [(D * D)%nat] /\ wf w /\ forall a b, (a < D)%nat -> (b < D)%nat -> el w a b = P a b).
  { set (g := fun k : nat => sum D (fun a => sum D (fun b => delta (off a b) k * P a b))).
    exists (mk [(D * D)%nat] (fun x => g (nth 0 x 0%nat))). split; [reflexivity|]. split; [apply wf_mk|]. intros a b Ha Hb.
    rewrite Hel, get_mk by (apply in_range_1; apply Hin; assumption). cbn [nth]. unfold g.
    rewrite (sum_single D a); [|exact Ha|intros a' Ha' Hne; apply sum_zero; intros b' Hb'; unfold delta; destruct (Nat.eqb_spec (off a' b') (off a b)) as [Eo|_]; [destruct (Hinj a' b' a b Ha' Hb' Ha Hb Eo); contradiction|ring]].
    rewrite (sum_single D b); [|exact Hb|intros b' Hb' Hne; unfold delta; destruct (Nat.eqb_spec (off a b') (off a b)) as [Eo|_]; [destruct (Hinj a b' a b Ha Hb' Ha Hb Eo); contradiction|ring]].
    unfold delta. rewrite Nat.eqb_refl. ring. }
  destruct HvP as (w & W1 & W2 & W3).
  assert (HwE : vec_eigen (D * D) f (rinj eta) w).
  { apply Htwo. split; [exact W1|]. split; [exact W2|]. destruct HP as ((a & b & Ha & Hb & Hne) & HPe). split.
    - exists a, b. rewrite W3 by assumption. auto.
    - intros i j Hi Hj. rewrite (Fext _ P i j W3 Hi Hj), (W3 i j Hi Hj). apply HPe; assumption. }
  assert (Hle : forall mu w', vec_eigen (D * D) f mu w' -> (kmod2 mu <= kmod2 (rinj eta))%R).
  { intros mu w' Hw'. destruct (Rle_lt_dec (eta * eta) (kmod2 mu)) as [Hge|Hlt].
    - apply Htwo in Hw'. destruct Hw' as (_ & _ & Hw'). destruct (Hmax mu _ Hw' Hge) as [-> _]. lra.
    - rewrite kmod2_rinj. lra. }
  destruct (He f (D * D)%nat v0) as (mu & Hmu & Hlg).
  { exists w, (rinj eta). split; [exact HwE|exact Hle]. }
  fold v in Hmu. pose proof (Hlg _ _ HwE) as Hge. rewrite kmod2_rinj in Hge.
  split; [exists mu; split; assumption|]. apply Htwo in Hmu. destruct Hmu as (V1 & V2 & V3). split; [exact V1|]. split; [exact V2|].
  destruct (Hmax mu _ V3 Hge) as [_ (c & Hc)]. exists c. split; [|exact Hc].
  intros ->. destruct V3 as ((a & b & Ha & Hb & Hne) & _). apply Hne. rewrite Hc by assumption. ring.
Qed.


(** Eigenvectors in the basis change: their hermitian parts are proportional to the positive eigenvectors *)
Section Power.
Variables (psi : itebd) (D E dA dB : nat) (eigs : (tensor -> tensor) -> nat -> tensor -> tensor).
Hypothesis HD : (0 < D)%nat.
Hypothesis HE : (0 < E)%nat.
Hypothesis HdA : (0 < dA)%nat.
Hypothesis HdB : (0 < dB)%nat.
Hypothesis HA : dims (iA psi) = [D; dA; E].
Hypothesis HAw : wf (iA psi).
Hypothesis HB : dims (iB psi) = [E; dB; D].
Hypothesis HBw : wf (iB psi).
Hypothesis HlA : length (ilA psi) = E.
Hypothesis HlB : length (ilB psi) = D.
Hypothesis HAl : dims (iAlA psi) = [D; dA; E].
Hypothesis HAlw : wf (iAlA psi).
Hypothesis HBl : dims (iBlB psi) = [E; dB; D].
Hypothesis HBlw : wf (iBlB psi).
Hypothesis HgA : forall a i b, (a < D)%nat -> (i < dA)%nat -> (b < E)%nat -> get (iAlA psi) [a; i; b] = get (iA psi) [a; i; b] * rinj (nth b (ilA psi) 0%R).
Hypothesis HgB : forall b i a, (b < E)%nat -> (i < dB)%nat -> (a < D)%nat -> get (iBlB psi) [b; i; a] = get (iB psi) [b; i; a] * rinj (nth a (ilB psi) 0%R).

Let vr := itebd_power_eig eigs (iA psi) (ilA psi) (iB psi) (ilB psi) (-1).
Let vl := itebd_power_eig eigs (iA psi) (ilA psi) (iB psi) (ilB psi) 1.

Lemma scaleA : scale (iA psi) 2 (ilA psi) = iAlA psi.
Proof.
  clear - HA HAl HAlw HgA.
  apply tensor_ext; [apply wf_mk|exact HAlw|cbn [scale dims mk]; rewrite HA, HAl; reflexivity|].
  intros x Hx. cbn [scale dims mk] in Hx. rewrite HA in Hx. destruct (in_range_inv3 _ _ _ _ Hx) as (a & i & b & -> & Ha & Hi & Hb).
  rewrite get_scale by (rewrite HA; apply in_range_3; assumption). rewrite HgA by assumption. reflexivity.
Qed.
Lemma scaleB : scale (iB psi) 2 (ilB psi) = iBlB psi.
Proof.
  clear - HB HBl HBlw HgB.
  apply tensor_ext; [apply wf_mk|exact HBlw|cbn [scale dims mk]; rewrite HB, HBl; reflexivity|].
  intros x Hx. cbn [scale dims mk] in Hx. rewrite HB in Hx. destruct (in_range_inv3 _ _ _ _ Hx) as (a & i & b & -> & Ha & Hi & Hb).
  rewrite get_scale by (rewrite HB; apply in_range_3; assumption). rewrite HgB by assumption. reflexivity.
Qed.

Lemma right_map_ext M M' a b : (forall i j, (i < D)%nat -> (j < D)%nat -> M i j = M' i j) -> right_map psi M a b = right_map psi M' a b.
Proof. clear - HlB. intros H. unfold right_map. rewrite HlB. apply sum_ext. intros x Hx. apply sum_ext. intros y Hy. rewrite H by assumption. reflexivity. Qed.
Lemma left_map_ext M M' a b : (forall i j, (i < D)%nat -> (j < D)%nat -> M i j = M' i j) -> left_map psi M a b = left_map psi M' a b.
Proof. clear - HlB. intros H. unfold left_map. rewrite HlB. apply sum_ext. intros x Hx. apply sum_ext. intros y Hy. rewrite H by assumption. reflexivity. Qed.
Lemma right_map_scal c M a b : right_map psi (fun i j => c * M i j) a b = c * right_map psi M a b.
Proof. clear. unfold right_map. rewrite sum_mul_l. apply sum_ext. intros x _. rewrite sum_mul_l. apply sum_ext. intros; ring. Qed.
Lemma left_map_scal c M a b : left_map psi (fun i j => c * M i j) a b = c * left_map psi M a b.
Proof. clear. unfold left_map. rewrite sum_mul_l. apply sum_ext. intros x _. rewrite sum_mul_l. apply sum_ext. intros; ring. Qed.

(** One application of the map that canonical_form gives to eigs *)
Lemma right_step v x y : dims v = [(D * D)%nat] -> wf v -> (x < D)%nat -> (y < D)%nat ->
  get (px4 v (-1) (scale (iB psi) (rank (iB psi) - 1) (ilB psi)) (scale (iA psi) (rank (iA psi) - 1) (ilA psi)) D) [(x + D * y)%nat] =
  right_map psi (fun b b' => get v [(b' + D * b)%nat]) y x.
Proof.
  intros Hv Hvw Hx Hy. unfold rank. rewrite HA, HB. cbn [length Nat.sub]. rewrite scaleA, scaleB.
  rewrite (px4_left v (iAlA psi) (iBlB psi) D E dA dB x y) by assumption. unfold right_map, cell_dims, dim. rewrite HlB, HA, HB. reflexivity.
Qed.
Lemma left_step v x y : dims v = [(D * D)%nat] -> wf v -> (x < D)%nat -> (y < D)%nat ->
  get (px4 v 1 (scale (iA psi) 0 (ilB psi)) (scale (iB psi) 0 (ilA psi)) D) [(x + D * y)%nat] =
  left_map psi (fun a a' => get v [(a + D * a')%nat]) x y.
Proof.
  intros Hv Hvw Hx Hy.
  rewrite (px4_right v (scale (iA psi) 0 (ilB psi)) (scale (iB psi) 0 (ilA psi)) D E dA dB x y); [|exact HD|exact HE|exact HdA|exact HdB|exact Hv|exact Hvw|exact HA|apply wf_mk|exact HB|apply wf_mk|exact Hx|exact Hy].
  unfold left_map, cell_dims, dim. rewrite HlB, HA, HB. cbn [nth repeat concat app]. apply sum_ext. intros a Ha. apply sum_ext. intros a' Ha'. f_equal. apply sumcfg_ext. intros is Hi.
  assert (E0 : forall u t, (u < D)%nat -> (t < D)%nat -> chain [scale (iA psi) 0 (ilB psi); scale (iB psi) 0 (ilA psi)] is u t = rinj (nth u (ilB psi) 0%R) * chain [iAlA psi; iB psi] is u t).
  { intros u t Hu Ht. destruct (cell_in dA dB is Hi) as (i & j & -> & Hi1 & Hj).
    rewrite (chain2 _ _ i j u t E D); [|unfold dim; cbn [scale dims mk]; rewrite HA; reflexivity|unfold dim; cbn [scale dims mk]; rewrite HB; reflexivity|exact Ht].
    rewrite (chain2 (iAlA psi) (iB psi) i j u t E D); [|unfold dim; rewrite HAl; reflexivity|unfold dim; rewrite HB; reflexivity|exact Ht].
    rewrite sum_mul_l. apply sum_ext. intros c Hc. rewrite !get_scale by (rewrite ?HA, ?HB; apply in_range_3; assumption). rewrite HgA by assumption. cbn [nth]. ring. }
  rewrite (E0 a x Ha Hx), (E0 a' y Ha' Hy). reflexivity.
Qed.

Lemma power_matrix v : (exists f v0, v = eigs f (D * D)%nat v0) -> (forall f v0, dims (eigs f (D * D)%nat v0) = [(D * D)%nat] /\ wf (eigs f (D * D)%nat v0)) ->
  dims v = [(D * D)%nat] /\ wf v.
Proof. intros (f & v0 & ->) H. apply H. Qed.

Lemma vr_sized : eigs_sized eigs -> is_matrix vr D D /\ herm D (fun i j => get vr [i; j]).
Proof.
  clear - HlB. intros Hs. unfold vr, itebd_power_eig. rewrite HlB. cbn [Z.ltb Z.compare]. set (v := eigs _ _ _). destruct (Hs _ _ _ : dims v = _ /\ wf v) as [H1 H2].
  destruct (herm_part D v H1 H2) as (E1 & E2 & _). split; [exact E1|exact E2].
Qed.
Lemma vl_sized : eigs_sized eigs -> is_matrix vl D D /\ herm D (fun i j => get vl [i; j]).
Proof.
  clear - HlB. intros Hs. unfold vl, itebd_power_eig. rewrite HlB. cbn [Z.ltb Z.compare]. set (v := eigs _ _ _). destruct (Hs _ _ _ : dims v = _ /\ wf v) as [H1 H2].
  destruct (herm_part D v H1 H2) as (E1 & E2 & _). split; [exact E1|exact E2].
Qed.

Lemma half_re c x y : kconj y = x -> rinj (/ 2)%R * (c * x + kconj (c * y)) = rinj (kre c) * x.
Proof.
  clear. intros H. rewrite kconj_mul, H. transitivity (rinj (/ 2)%R * (c + kconj c) * x); [ring|]. rewrite <- twice_re, <- rinj_mul. do 2 f_equal. field.
Qed.

Lemma off_inj a b a' b' : (a < D)%nat -> (b < D)%nat -> (a' < D)%nat -> (b' < D)%nat -> (a + D * b = a' + D * b')%nat -> a = a' /\ b = b'.
Proof.
  clear. intros Ha Hb Ha' Hb' H. destruct (Nat.lt_trichotomy b b') as [L|[L|L]]; [exfalso|subst b'; split; lia|exfalso].
  - assert (D * S b <= D * b')%nat by (apply Nat.mul_le_mono_l; lia). rewrite Nat.mul_succ_r in H0. lia.
  - assert (D * S b' <= D * b)%nat by (apply Nat.mul_le_mono_l; lia). rewrite Nat.mul_succ_r in H0. lia.
Qed.

(** The vectors that eigs may return for the map of the right, times a factor, are again vectors that eigs may return *)
Lemma right_phase v z : let f := fun v => px4 v (-1) (scale (iB psi) (rank (iB psi) - 1) (ilB psi)) (scale (iA psi) (rank (iA psi) - 1) (ilA psi)) D in
  z <> 0 -> largest_eigen (D * D) f v -> largest_eigen (D * D) f (tscale z v).
Proof.
  intros f Hz (mu & (V1 & V2 & (k & Hk & Hne) & V4) & Hmax). exists mu. split; [|exact Hmax].
  assert (g : forall k, (k < D * D)%nat -> get (tscale z v) [k] = z * get v [k]) by (intros k' Hk'; apply get_tscale; [exact V2|rewrite V1; apply in_range_1; exact Hk']).
  assert (W : wf (tscale z v)) by (apply wf_tscale; exact V2).
  split; [exact V1|]. split; [exact W|]. split.
  - exists k. split; [exact Hk|]. rewrite g by exact Hk. apply kmul_nonzero; assumption.
  - intros i Hi. rewrite (g i Hi). destruct (merge_inv D i HD Hi) as (x & y & Hx & Hy & ->). unfold f. rewrite (right_step (tscale z v) x y); auto.
    transitivity (z * right_map psi (fun b b' => get v [(b' + D * b)%nat]) y x).
    + rewrite <- right_map_scal. apply right_map_ext. intros a b Ha Hb. apply g. nia.
    + rewrite <- (right_step v x y V1 V2 Hx Hy). specialize (V4 _ Hi). unfold f in V4. rewrite V4. ring.
Qed.

Lemma vr_largest eta P : eigs_largest eigs -> dominates D (right_map psi) eta P ->
  let f := fun v => px4 v (-1) (scale (iB psi) (rank (iB psi) - 1) (ilB psi)) (scale (iA psi) (rank (iA psi) - 1) (ilA psi)) D in
  forall v0, largest_eigen (D * D) f (eigs f (D * D)%nat v0) /\ exists c, c <> 0 /\ forall a b, (a < D)%nat -> (b < D)%nat -> get (eigs f (D * D)%nat v0) [(b + D * a)%nat] = c * P a b.
Proof.
  intros He Hdom f v0.
  destruct (eigs_dominant eigs D f (right_map psi) (fun v b b' => get v [(b' + D * b)%nat]) (fun b b' => (b' + D * b)%nat) eta P v0) as (Hlg & H1 & H2 & H3); auto.
  - intros k Hk. destruct (merge_inv D k HD Hk) as (x & y & Hx & Hy & ->). exists y, x. auto.
  - intros a b Ha Hb. nia.
  - intros a b a' b' Ha Hb Ha' Hb' Eo. destruct (off_inj b a b' a'); auto.
  - intros M M' a b HM Ha Hb. apply right_map_ext. exact HM.
  - intros v a b Hv Hvw Ha Hb. apply right_step; assumption.
Qed.

Lemma vr_dominant eta P : eigs_largest eigs -> dominates D (right_map psi) eta P -> herm D P ->
  is_matrix vr D D /\ herm D (fun i j => get vr [i; j]) /\
  exists c : K, c <> 0 /\ forall i j, (i < D)%nat -> (j < D)%nat -> get vr [i; j] = rinj (kre c) * P i j.
Proof.
  intros He Hdom HP. unfold vr, itebd_power_eig. rewrite HlB. cbn [Z.ltb Z.compare]. set (f := fun v => px4 v (-1) _ _ D). set (v0 := reshape (tscale _ (eye D)) _).
  destruct (eigs_dominant eigs D f (right_map psi) (fun v b b' => get v [(b' + D * b)%nat]) (fun b b' => (b' + D * b)%nat) eta P v0) as (Hlg & H1 & H2 & c & Hc & H3); auto.
  - intros k Hk. destruct (merge_inv D k HD Hk) as (x & y & Hx & Hy & ->). exists y, x. auto.
  - intros a b Ha Hb. nia.
  - intros a b a' b' Ha Hb Ha' Hb' Eo. destruct (off_inj b a b' a'); auto.
  - intros M M' a b HM Ha Hb. apply right_map_ext. exact HM.
  - intros v a b Hv Hvw Ha Hb. apply right_step; assumption.
  - set (v := eigs f (D * D)%nat v0) in *. destruct (herm_part D v H1 H2) as (E1 & E2 & E3). split; [exact E1|]. split; [exact E2|].
    exists c. split; [exact Hc|]. intros i j Hi Hj. rewrite E3 by assumption. rewrite (H3 i j Hi Hj), (H3 j i Hj Hi). apply half_re. apply HP; assumption.
Qed.

Lemma vl_dominant eta Q : eigs_largest eigs -> dominates D (left_map psi) eta Q -> herm D Q ->
  is_matrix vl D D /\ herm D (fun i j => get vl [i; j]) /\
  exists c : K, c <> 0 /\ forall i j, (i < D)%nat -> (j < D)%nat -> get vl [i; j] = rinj (kre c) * Q j i.
Proof.
  intros He Hdom HP. unfold vl, itebd_power_eig. rewrite HlB. cbn [Z.ltb Z.compare]. set (f := fun v => px4 v 1 _ _ D). set (v0 := reshape (tscale _ (eye D)) _).
  destruct (eigs_dominant eigs D f (left_map psi) (fun v b b' => get v [(b + D * b')%nat]) (fun b b' => (b + D * b')%nat) eta Q v0) as (Hlg & H1 & H2 & c & Hc & H3); auto.
  - intros k Hk. destruct (merge_inv D k HD Hk) as (x & y & Hx & Hy & ->). exists x, y. auto.
  - intros a b Ha Hb. nia.
  - intros a b a' b' Ha Hb Ha' Hb' Eo. destruct (off_inj a b a' b'); auto.
  - intros M M' a b HM Ha Hb. apply left_map_ext. exact HM.
  - intros v a b Hv Hvw Ha Hb. apply left_step; assumption.
  - set (v := eigs f (D * D)%nat v0) in *. destruct (herm_part D v H1 H2) as (E1 & E2 & E3). split; [exact E1|]. split; [exact E2|].
    exists c. split; [exact Hc|]. intros i j Hi Hj. rewrite E3 by assumption. rewrite (H3 j i Hj Hi), (H3 i j Hi Hj). apply half_re. apply HP; assumption.
Qed.

Lemma transpose_positive Q : positive D Q -> positive D (fun i j => Q j i).
Proof.
  clear. intros [H1 H2]. split; [intros i j Hi Hj; apply H1; assumption|]. intros v (i & Hi & Hv).
  assert (Hc : exists i, (i < D)%nat /\ kconj (v i) <> 0).
  { exists i. split; [exact Hi|]. intros E0. apply Hv. rewrite <- (kconj_inv (v i)), E0. rewrite <- rinj_0. apply rinj_conj. }
  specialize (H2 (fun i => kconj (v i)) Hc). cbv beta in H2. rewrite sum_swap in H2.
  replace (sum D (fun i0 => sum D (fun j => kconj (v i0) * Q j i0 * v j))) with (sum D (fun j => sum D (fun i => kconj (kconj (v i)) * Q i j * kconj (v j)))); [exact H2|].
  apply sum_ext. intros a _. apply sum_ext. intros b _. rewrite kconj_inv. ring.
Qed.

End Power.

End Eig.
