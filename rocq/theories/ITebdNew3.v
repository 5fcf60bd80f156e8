(** * Eigenvectors in the constructor of infinite states from the tensor of a cell *)
From Coq Require Import Reals Lra Bool List Arith ZArith Lia Ring.
From Verif Require QFormFacts SparseFacts.
From Verif Require Import Scalar ScalarFacts RScal Tensor TensorFacts Spec MpsModel MpsFacts EnvFacts CanonModel CanonSpec CanonFacts CanonSweep SplitFacts LFormFacts LFormValue SvdExist ITebdModel ITebdSpec ITebdFacts ITebdSlow ITebdSpec2 ITebdGauge ITebdCanon ITebdCanon2 ITebdEig ITebdNewModel ITebdNewSpec ITebdNew ITebdNew2.
Import ListNotations.
Local Open Scope K_scope.

Section Eig.
Context {RS : RScal}.
Add Ring Kring : k_ring.

Lemma E1_none G D d x y z w : dims G = [D; d; D] -> E1 G G None x y z w = sum d (fun p => kconj (get G [x; p; z]) * get G [y; p; w]).
Proof.
  intros HG. unfold E1, dim. rewrite HG. cbn [nth opel]. apply sum_ext. intros p Hp.
  rewrite (sum_ext d _ (fun j => delta p j * (kconj (get G [x; p; z]) * get G [y; j; w]))) by (intros; ring).
  apply (sum_delta_l' d p (fun j => kconj (get G [x; p; z]) * get G [y; j; w])). exact Hp.
Qed.

Lemma px_left v G D d x y : (0 < D)%nat -> (0 < d)%nat -> dims v = [(D * D)%nat] -> wf v -> dims G = [D; d; D] -> (x < D)%nat -> (y < D)%nat ->
  get (px v (-1) G D) [(x + D * y)%nat] =
  sum D (fun b => sum D (fun b' => sum d (fun p => get G [y; p; b] * kconj (get G [x; p; b'])) * get v [(b' + D * b)%nat])).
Proof.
  intros HD Hd Hv Hvw HG Hx Hy. unfold px.
  set (v0 := reshape v [D; D]). set (v4 := reshape v0 [D; D; 1%nat; 1%nat]).
  assert (Hw0 : wf v0) by (apply wf_reshape; [exact Hvw|rewrite Hv; cbn; lia]).
  assert (E0 : is_empty v0 = false) by (apply is_empty_wf; [exact Hw0|cbn; nia]).
  assert (M1 : prop_matrix v0 (-1) G G None = prop_left4 v4 G G None).
  { unfold prop_matrix, prop_left. rewrite E0. reflexivity. }
  rewrite M1.
  assert (Hd1 : dims (prop_left4 v4 G G None) = [D; D; 1%nat; 1%nat]) by (eapply prop_left4_dims; [reflexivity|exact HG|exact HG]).
  rewrite (get_reshape _ _ _ [x; y; 0%nat; 0%nat]) by (rewrite Hd1; cbn; ring).
  rewrite (prop_left4_get v4 G G None 1 1 D D D d D d) by (auto; try reflexivity). rewrite sum_swap.
  apply sum_ext. intros b Hb. apply sum_ext. intros b' Hb'.
  assert (Eg : get v4 [b'; b; 0%nat; 0%nat] = get v [(b' + D * b)%nat]).
  { unfold v4, v0. rewrite (get_reshape _ _ _ [b'; b]) by (cbn; lia). apply get_reshape. rewrite Hv. cbn. lia. }
  rewrite Eg. f_equal. rewrite (E1_none G D d) by exact HG. apply sum_ext. intros; ring.
Qed.
Lemma px_right v G D d x y : (0 < D)%nat -> (0 < d)%nat -> dims v = [(D * D)%nat] -> wf v -> dims G = [D; d; D] -> (x < D)%nat -> (y < D)%nat ->
  get (px v 1 G D) [(x + D * y)%nat] =
  sum D (fun a => sum D (fun a' => sum d (fun p => kconj (get G [a; p; x]) * get G [a'; p; y]) * get v [(a + D * a')%nat])).
Proof.
  intros HD Hd Hv Hvw HG Hx Hy. unfold px.
  set (v0 := reshape v [D; D]). set (v4 := reshape v0 [1%nat; 1%nat; D; D]).
  assert (Hw0 : wf v0) by (apply wf_reshape; [exact Hvw|rewrite Hv; cbn; lia]).
  assert (E0 : is_empty v0 = false) by (apply is_empty_wf; [exact Hw0|cbn; nia]).
  assert (M1 : prop_matrix v0 1 G G None = prop_right4 v4 G G None).
  { unfold prop_matrix, prop_right. rewrite E0. reflexivity. }
  rewrite M1.
  assert (Hd1 : dims (prop_right4 v4 G G None) = [1%nat; 1%nat; D; D]) by (eapply prop_right4_dims; [reflexivity|exact HG|exact HG]).
  rewrite (get_reshape _ _ _ [0%nat; 0%nat; x; y]) by (rewrite Hd1; cbn; ring).
  rewrite (prop_right4_get v4 G G None 1 1 D D d D d D) by (auto; try reflexivity).
  apply sum_ext. intros a Ha. apply sum_ext. intros a' Ha'.
  assert (Eg : get v4 [0%nat; 0%nat; a; a'] = get v [(a + D * a')%nat]).
  { unfold v4, v0. rewrite (get_reshape _ _ _ [a; a']) by (cbn; lia). apply get_reshape. rewrite Hv. cbn. lia. }
  rewrite Eg. rewrite (E1_none G D d) by exact HG. ring.
Qed.

Section Cell.
Variables (AB : tensor) (l : list R) (D dA dB : nat).
Variable eigs : (tensor -> tensor) -> nat -> tensor -> tensor.
Hypothesis HD : (0 < D)%nat.
Hypothesis HdA : (0 < dA)%nat.
Hypothesis HdB : (0 < dB)%nat.
Hypothesis HAB : dims AB = [D; dA; dB; D].
Hypothesis HABw : wf AB.
Hypothesis Hl : length l = D.
Notation plain := (plain AB l D dA dB).

Lemma G3_get a i j b : (a < D)%nat -> (i < dA)%nat -> (j < dB)%nat -> (b < D)%nat -> get (G3 AB D dA dB) [a; (i + dA * j)%nat; b] = get AB [a; i; j; b].
Proof. clear - HAB. intros. unfold G3. apply get_reshape. rewrite HAB. cbn [offset]. nia. Qed.

Lemma right_step1 v x y : dims v = [(D * D)%nat] -> wf v -> (x < D)%nat -> (y < D)%nat ->
  get (px v (-1) (scale (G3 AB D dA dB) 2 l) D) [(x + D * y)%nat] = cell_right_map AB l dA dB (fun b b' => get v [(b' + D * b)%nat]) y x.
Proof.
  intros Hv Hvw Hx Hy. rewrite (px_left v _ D (dA * dB) x y) by (first [assumption|reflexivity|nia]).
  unfold cell_right_map. rewrite Hl. apply sum_ext. intros b Hb. apply sum_ext. intros b' Hb'. f_equal.
  rewrite sum_merge, sum_swap. apply sum_ext. intros i Hi. apply sum_ext. intros j Hj. unfold cell_entry.
  assert (Hp : (i + dA * j < dA * dB)%nat) by nia.
  rewrite !get_scale by (apply in_range_3; assumption). cbn [nth]. rewrite !G3_get by assumption. reflexivity.
Qed.
Lemma left_step1 v x y : dims v = [(D * D)%nat] -> wf v -> (x < D)%nat -> (y < D)%nat ->
  get (px v 1 (scale (G3 AB D dA dB) 0 l) D) [(x + D * y)%nat] = cell_left_map AB l dA dB (fun a a' => get v [(a + D * a')%nat]) x y.
Proof.
  intros Hv Hvw Hx Hy. rewrite (px_right v _ D (dA * dB) x y) by (first [assumption|reflexivity|nia]).
  unfold cell_left_map. rewrite Hl. apply sum_ext. intros a Ha. apply sum_ext. intros a' Ha'. f_equal.
  rewrite sum_merge, sum_swap. apply sum_ext. intros i Hi. apply sum_ext. intros j Hj.
  assert (Hp : (i + dA * j < dA * dB)%nat) by nia.
  rewrite !get_scale by (apply in_range_3; assumption). cbn [nth]. rewrite !G3_get by assumption. rewrite !kconj_mul. ring.
Qed.

Lemma cell_right_ext M M' a b : (forall i j, (i < D)%nat -> (j < D)%nat -> M i j = M' i j) -> cell_right_map AB l dA dB M a b = cell_right_map AB l dA dB M' a b.
Proof. clear - Hl. intros H. unfold cell_right_map. rewrite Hl. apply sum_ext. intros x Hx. apply sum_ext. intros y Hy. rewrite H by assumption. reflexivity. Qed.
Lemma cell_left_ext M M' a b : (forall i j, (i < D)%nat -> (j < D)%nat -> M i j = M' i j) -> cell_left_map AB l dA dB M a b = cell_left_map AB l dA dB M' a b.
Proof. clear - Hl. intros H. unfold cell_left_map. rewrite Hl. apply sum_ext. intros x Hx. apply sum_ext. intros y Hy. rewrite H by assumption. reflexivity. Qed.

Lemma vright_dominant eta P : eigs_largest eigs -> dominates D (cell_right_map AB l dA dB) eta P -> herm D P ->
  is_matrix (vright eigs AB l D dA dB) D D /\ herm D (fun i j => get (vright eigs AB l D dA dB) [i; j]) /\
  exists c : K, c <> 0 /\ forall i j, (i < D)%nat -> (j < D)%nat -> get (vright eigs AB l D dA dB) [i; j] = rinj (kre c) * P i j.
Proof.
  intros He Hdom HP. unfold vright, itebd_power_eig1. cbv zeta. change (dim (scale (G3 AB D dA dB) 2 l) 2) with D. set (f := fun v => px v (-1) _ D). set (v0 := tscale _ (reshape (eye D) _)).
  destruct (eigs_dominant eigs D f (cell_right_map AB l dA dB) (fun v b b' => get v [(b' + D * b)%nat]) (fun b b' => (b' + D * b)%nat) eta P v0) as (Hlg & H1 & H2 & c & Hc & H3); auto.
  - intros k Hk. destruct (merge_inv D k HD Hk) as (x & y & Hx & Hy & ->). exists y, x. auto.
  - intros a b Ha Hb. nia.
  - intros a b a' b' Ha Hb Ha' Hb' Eo. destruct (off_inj D b a b' a'); auto.
  - intros M M' a b HM Ha Hb. apply cell_right_ext. exact HM.
  - intros v a b Hv Hvw Ha Hb. apply right_step1; assumption.
  - set (v := eigs f (D * D)%nat v0) in *. destruct (herm_part D v H1 H2) as (E1 & E2 & E3). split; [exact E1|]. split; [exact E2|].
    exists c. split; [exact Hc|]. intros i j Hi Hj. rewrite E3 by assumption. rewrite (H3 i j Hi Hj), (H3 j i Hj Hi). apply half_re. apply HP; assumption.
Qed.
Lemma vleft_dominant eta Q : eigs_largest eigs -> dominates D (cell_left_map AB l dA dB) eta Q -> herm D Q ->
  is_matrix (vleft eigs AB l D dA dB) D D /\ herm D (fun i j => get (vleft eigs AB l D dA dB) [i; j]) /\
  exists c : K, c <> 0 /\ forall i j, (i < D)%nat -> (j < D)%nat -> get (vleft eigs AB l D dA dB) [i; j] = rinj (kre c) * Q j i.
Proof.
  intros He Hdom HP. unfold vleft, itebd_power_eig1. cbv zeta. change (dim (scale (G3 AB D dA dB) 0 l) 2) with D. set (f := fun v => px v 1 _ D). set (v0 := tscale _ (reshape (eye D) _)).
  destruct (eigs_dominant eigs D f (cell_left_map AB l dA dB) (fun v b b' => get v [(b + D * b')%nat]) (fun b b' => (b + D * b')%nat) eta Q v0) as (Hlg & H1 & H2 & c & Hc & H3); auto.
  - intros k Hk. destruct (merge_inv D k HD Hk) as (x & y & Hx & Hy & ->). exists x, y. auto.
  - intros a b Ha Hb. nia.
  - intros a b a' b' Ha Hb Ha' Hb' Eo. destruct (off_inj D a b a' b'); auto.
  - intros M M' a b HM Ha Hb. apply cell_left_ext. exact HM.
  - intros v a b Hv Hvw Ha Hb. apply left_step1; assumption.
  - set (v := eigs f (D * D)%nat v0) in *. destruct (herm_part D v H1 H2) as (E1 & E2 & E3). split; [exact E1|]. split; [exact E2|].
    exists c. split; [exact Hc|]. intros i j Hi Hj. rewrite E3 by assumption. rewrite (H3 j i Hj Hi), (H3 i j Hi Hj). apply half_re. apply HP; assumption.
Qed.

(** The maps of the cell are those of the state [plain] *)
Lemma plain_right P a a' : (a < D)%nat -> (a' < D)%nat -> right_map plain P a a' = cell_right_map AB l dA dB P a a'.
Proof.
  intros Ha Ha'. unfold right_map, cell_right_map. change (ilB plain) with l. rewrite Hl. apply sum_ext. intros b Hb. apply sum_ext. intros b' Hb'. f_equal.
  unfold cell_dims. cbn [repeat concat app]. unfold dim. cbn [iA iB ITebdNew.plain cA cB dims reshape mk nth sumcfg].
  apply sum_ext. intros i Hi. apply sum_ext. intros j Hj. change (cells plain 1) with [iAlA plain; iBlB plain].
  rewrite !(plain_chain AB l D dA dB) by assumption. reflexivity.
Qed.
Lemma plain_left Q b b' : (b < D)%nat -> (b' < D)%nat -> left_map plain Q b b' = cell_left_map AB l dA dB Q b b'.
Proof.
  intros Hb Hb'. unfold left_map, cell_left_map. change (ilB plain) with l. rewrite Hl. apply sum_ext. intros a Ha. apply sum_ext. intros a' Ha'. f_equal.
  unfold cell_dims. cbn [repeat concat app]. unfold dim. cbn [iA iB ITebdNew.plain cA cB dims reshape mk nth sumcfg].
  apply sum_ext. intros i Hi. apply sum_ext. intros j Hj.
  assert (Ec : forall x y, (x < D)%nat -> (y < D)%nat -> chain [iAlA plain; iB plain] [i; j] x y = get AB [x; i; j; y]).
  { intros x y Hx Hy. rewrite (chain2 _ _ i j x y (dB * D) D) by (first [reflexivity|exact Hy]). apply (cell_plain AB l D dA dB); assumption. }
  cbn [iAlA iB ITebdNew.plain] in Ec. rewrite !Ec by assumption. reflexivity.
Qed.
End Cell.
End Eig.
