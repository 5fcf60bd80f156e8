(** * Gauge transformations of infinite states: the algebra of the canonical form *)
From Coq Require Import Reals Lra Bool List Arith ZArith Lia Ring.
From Verif Require Import Scalar ScalarFacts RScal Spec SvdExist.
Import ListNotations.
Local Open Scope K_scope.

Section Gauge.
Context {RS : RScal}.
Add Ring Kring : k_ring.

(** Product of matrices with inner dimension n *)
Definition mm (n : nat) (f g : nat -> nat -> K) (i j : nat) : K := sum n (fun k => f i k * g k j).
Definition ad (f : nat -> nat -> K) (i j : nat) : K := kconj (f j i).
Definition tp (f : nat -> nat -> K) (i j : nat) : K := f j i.
Definition cj (f : nat -> nat -> K) (i j : nat) : K := kconj (f i j).

Lemma mm_assoc n m f g h i j : mm n (mm m f g) h i j = mm m f (mm n g h) i j.
Proof.
  unfold mm. transitivity (sum n (fun k => sum m (fun l => f i l * g l k * h k j))).
  - apply sum_ext. intros k _. apply sum_mul_r.
  - rewrite sum_swap. apply sum_ext. intros l _. rewrite sum_mul_l. apply sum_ext. intros k _. ring.
Qed.

Lemma mm_ext n f f' g g' i j : (forall k, (k < n)%nat -> f i k = f' i k) -> (forall k, (k < n)%nat -> g k j = g' k j) -> mm n f g i j = mm n f' g' i j.
Proof. intros H1 H2. apply sum_ext. intros k Hk. rewrite H1, H2 by exact Hk. reflexivity. Qed.
Lemma mm_ext_l n f f' g i j : (forall k, (k < n)%nat -> f i k = f' i k) -> mm n f g i j = mm n f' g i j.
Proof. intros H. apply mm_ext; [exact H|reflexivity]. Qed.
Lemma mm_ext_r n f g g' i j : (forall k, (k < n)%nat -> g k j = g' k j) -> mm n f g i j = mm n f g' i j.
Proof. intros H. apply mm_ext; [reflexivity|exact H]. Qed.
Lemma mm_id_l n f g i j : (i < n)%nat -> (forall k, (k < n)%nat -> f i k = delta i k) -> mm n f g i j = g i j.
Proof. intros Hi H. transitivity (sum n (fun k => delta i k * g k j)); [apply sum_ext; intros k Hk; rewrite H by exact Hk; reflexivity|]. apply (sum_delta_l' n i (fun k => g k j)). exact Hi. Qed.
Lemma mm_id_r n f g i j : (j < n)%nat -> (forall k, (k < n)%nat -> g k j = delta k j) -> mm n f g i j = f i j.
Proof. intros Hj H. transitivity (sum n (fun k => f i k * delta k j)); [apply sum_ext; intros k Hk; rewrite H by exact Hk; reflexivity|]. apply (sum_delta_r n j (fun k => f i k)). exact Hj. Qed.
Lemma mm_ad n f g i j : ad (mm n f g) i j = mm n (ad g) (ad f) i j.
Proof. unfold ad, mm. rewrite sum_conj. apply sum_ext. intros k _. rewrite kconj_mul. ring. Qed.
Lemma mm_tp n f g i j : tp (mm n f g) i j = mm n (tp g) (tp f) i j.
Proof. unfold tp, mm. apply sum_ext. intros k _. ring. Qed.
Lemma mm_cj n f g i j : cj (mm n f g) i j = mm n (cj f) (cj g) i j.
Proof. unfold cj, mm. rewrite sum_conj. apply sum_ext. intros k _. apply kconj_mul. Qed.

(** X Xi = 1 and Y Yi = 1; Y^T diag(lB) X = U diag(lam) V *)
Variables (D l : nat) (X Xi Y Yi U V : nat -> nat -> K) (lB lam : nat -> R).
Hypothesis HX : forall i j, (i < D)%nat -> (j < D)%nat -> mm D X Xi i j = delta i j.
Hypothesis HX' : forall i j, (i < D)%nat -> (j < D)%nat -> mm D Xi X i j = delta i j.
Hypothesis HY : forall i j, (i < D)%nat -> (j < D)%nat -> mm D Y Yi i j = delta i j.
Hypothesis HY' : forall i j, (i < D)%nat -> (j < D)%nat -> mm D Yi Y i j = delta i j.
Hypothesis HU : forall i j, (i < l)%nat -> (j < l)%nat -> mm D (ad U) U i j = delta i j.
Hypothesis HV : forall i j, (i < l)%nat -> (j < l)%nat -> mm D V (ad V) i j = delta i j.

Definition glX (i j : nat) : K := rinj (lB i) * X i j.
Definition gUL (i j : nat) : K := U i j * rinj (lam j).
Definition gLV (i j : nat) : K := rinj (lam i) * V i j.
Definition gaux (i j : nat) : K := mm D (tp Y) glX i j.
Hypothesis Haux : forall i j, (i < D)%nat -> (j < D)%nat -> gaux i j = sum l (fun k => U i k * rinj (lam k) * V k j).

(** V Xi and X V^dagger *)
Definition gW (i j : nat) : K := mm D V Xi i j.
Definition gZ (i j : nat) : K := mm D X (ad V) i j.
Definition glZ (i j : nat) : K := rinj (lB i) * gZ i j.
(** U^dagger Y^T and Yi^T U *)
Definition gH (i j : nat) : K := mm D (ad U) (tp Y) i j.
Definition gJ (i j : nat) : K := mm D (tp Yi) U i j.

Lemma lZ_mm i j : glZ i j = mm D glX (ad V) i j.
Proof. unfold glZ, gZ, mm, glX. rewrite sum_mul_l. apply sum_ext. intros k _. ring. Qed.

Lemma aux_UL i j : (i < D)%nat -> (j < D)%nat -> gaux i j = mm l gUL V i j.
Proof. intros Hi Hj. apply Haux; assumption. Qed.
Lemma aux_LV i j : (i < D)%nat -> (j < D)%nat -> gaux i j = mm l U gLV i j.
Proof. intros Hi Hj. rewrite Haux by assumption. unfold mm, gLV. apply sum_ext. intros k _. ring. Qed.

Lemma UL_aux i y : (i < D)%nat -> (y < l)%nat -> mm D gaux (ad V) i y = gUL i y.
Proof.
  intros Hi Hy. transitivity (mm D (mm l gUL V) (ad V) i y); [apply mm_ext_l; intros k Hk; apply aux_UL; assumption|].
  rewrite mm_assoc. apply mm_id_r; [exact Hy|]. intros k Hk. apply HV; assumption.
Qed.
Lemma LV_aux x j : (x < l)%nat -> (j < D)%nat -> mm D (ad U) gaux x j = gLV x j.
Proof.
  intros Hx Hj. transitivity (mm D (ad U) (mm l U gLV) x j); [apply mm_ext_r; intros k Hk; apply aux_LV; assumption|].
  rewrite <- mm_assoc. apply mm_id_l; [exact Hx|]. intros k Hk. apply HU; assumption.
Qed.

Lemma Yt_id i j : (i < D)%nat -> (j < D)%nat -> mm D (tp Yi) (tp Y) i j = delta i j.
Proof. intros Hi Hj. rewrite <- mm_tp. unfold tp. rewrite HY by assumption. unfold delta. rewrite Nat.eqb_sym. reflexivity. Qed.
Lemma Yt_id' i j : (i < D)%nat -> (j < D)%nat -> mm D (tp Y) (tp Yi) i j = delta i j.
Proof. intros Hi Hj. rewrite <- mm_tp. unfold tp. rewrite HY' by assumption. unfold delta. rewrite Nat.eqb_sym. reflexivity. Qed.

(** B' = B Yi^T U, so that B' lam = B lB gZ *)
Lemma J_lam b y : (b < D)%nat -> (y < l)%nat -> gJ b y * rinj (lam y) = glZ b y.
Proof.
  intros Hb Hy. transitivity (mm D (tp Yi) gUL b y); [unfold gJ, mm, gUL; rewrite sum_mul_r; apply sum_ext; intros k _; ring|].
  transitivity (mm D (tp Yi) (mm D (mm D (tp Y) glX) (ad V)) b y); [apply mm_ext_r; intros k Hk; symmetry; apply UL_aux; assumption|].
  transitivity (mm D (tp Yi) (mm D (tp Y) glZ) b y).
  { apply mm_ext_r. intros k Hk. rewrite mm_assoc. apply mm_ext_r. intros q Hq. symmetry. apply lZ_mm. }
  rewrite <- mm_assoc. apply mm_id_l; [exact Hb|]. intros k Hk. apply Yt_id; assumption.
Qed.

(** lam gW = gH lB *)
Lemma lam_W x a : (x < l)%nat -> (a < D)%nat -> rinj (lam x) * gW x a = gH x a * rinj (lB a).
Proof.
  intros Hx Ha. transitivity (mm D gLV Xi x a); [unfold gW, mm, gLV; rewrite sum_mul_l; apply sum_ext; intros k _; ring|].
  transitivity (mm D (mm D (ad U) (mm D (tp Y) glX)) Xi x a); [apply mm_ext_l; intros k Hk; symmetry; apply LV_aux; assumption|].
  transitivity (mm D (mm D (ad U) (tp Y)) (mm D glX Xi) x a).
  { rewrite <- mm_assoc. apply mm_ext_l. intros k Hk. symmetry. apply mm_assoc. }
  transitivity (sum D (fun b => gH x b * (rinj (lB b) * delta b a))).
  { apply sum_ext. intros b Hb. f_equal. transitivity (rinj (lB b) * mm D X Xi b a); [unfold mm, glX; rewrite sum_mul_l; apply sum_ext; intros; ring|]. rewrite HX by assumption. reflexivity. }
  transitivity (sum D (fun b => gH x b * rinj (lB b) * delta b a)); [apply sum_ext; intros; ring|]. apply (sum_delta_r D a (fun b => gH x b * rinj (lB b))). exact Ha.
Qed.

(** lB gZ gW = lB *)
Lemma gZW b a : (b < D)%nat -> (a < D)%nat -> mm l glZ gW b a = rinj (lB b) * delta b a.
Proof.
  intros Hb Ha.
  transitivity (mm l (fun b y => gJ b y * rinj (lam y)) gW b a); [apply mm_ext_l; intros k Hk; symmetry; apply J_lam; assumption|].
  transitivity (mm l gJ (fun x a => gH x a * rinj (lB a)) b a); [unfold mm; apply sum_ext; intros k Hk; rewrite <- lam_W by assumption; ring|].
  transitivity (mm l gJ gH b a * rinj (lB a)); [unfold mm; rewrite sum_mul_r; apply sum_ext; intros; ring|].
  (* gJ gH lB = Yi^T U U^dagger Y^T lB *)
  assert (E : forall d, (d < D)%nat -> mm l U gH d a * rinj (lB a) = Y a d * rinj (lB a)).
  { intros d Hd. transitivity (mm l U (fun x a => rinj (lam x) * gW x a) d a).
    { unfold mm. rewrite sum_mul_r. apply sum_ext. intros k Hk. rewrite lam_W by assumption. ring. }
    transitivity (mm l gUL gW d a); [unfold mm, gUL; apply sum_ext; intros; ring|]. unfold gW.
    transitivity (mm D (mm l gUL V) Xi d a); [symmetry; apply mm_assoc|].
    transitivity (mm D gaux Xi d a); [apply mm_ext_l; intros k Hk; symmetry; apply aux_UL; assumption|]. unfold gaux.
    transitivity (mm D (tp Y) (mm D glX Xi) d a); [apply mm_assoc|].
    transitivity (sum D (fun b => tp Y d b * rinj (lB b) * delta b a)).
    { apply sum_ext. intros q Hq. transitivity (tp Y d q * (rinj (lB q) * mm D X Xi q a)); [unfold mm, glX; f_equal; rewrite sum_mul_l; apply sum_ext; intros; ring|]. rewrite HX by assumption. ring. }
    apply (sum_delta_r D a (fun b => tp Y d b * rinj (lB b))). exact Ha. }
  transitivity (mm D (tp Yi) (fun d a => mm l U gH d a * rinj (lB a)) b a).
  { transitivity (mm D (tp Yi) (mm l U gH) b a * rinj (lB a)); [|unfold mm; rewrite sum_mul_r; apply sum_ext; intros; ring].
    f_equal. unfold gJ. apply mm_assoc. }
  transitivity (mm D (tp Yi) (tp Y) b a * rinj (lB a)).
  { unfold mm at 1. unfold mm at 2. rewrite sum_mul_r. apply sum_ext. intros d Hd. rewrite E by exact Hd. unfold tp. ring. }
  rewrite Yt_id by assumption. destruct (Nat.eq_dec b a) as [->|Hne]; [ring|]. unfold delta. destruct (Nat.eqb_spec b a); [contradiction|]. ring.
Qed.

(** (U^dagger Y^T lB)^dagger (U^dagger Y^T lB) = (Y^T lB)^dagger (Y^T lB) *)
Lemma gHH a a' : (a < D)%nat -> (a' < D)%nat ->
  sum l (fun x => kconj (gH x a) * gH x a') * rinj (lB a') = sum D (fun d => kconj (Y a d) * Y a' d) * rinj (lB a').
Proof.
  intros Ha Ha'. 
  assert (E : forall d, (d < D)%nat -> mm l U gH d a' * rinj (lB a') = Y a' d * rinj (lB a')).
  { intros d Hd. transitivity (mm l U (fun x a => rinj (lam x) * gW x a) d a').
    { unfold mm. rewrite sum_mul_r. apply sum_ext. intros k Hk. rewrite lam_W by assumption. ring. }
    transitivity (mm l gUL gW d a'); [unfold mm, gUL; apply sum_ext; intros; ring|]. unfold gW.
    transitivity (mm D (mm l gUL V) Xi d a'); [symmetry; apply mm_assoc|].
    transitivity (mm D gaux Xi d a'); [apply mm_ext_l; intros k Hk; symmetry; apply aux_UL; assumption|]. unfold gaux.
    transitivity (mm D (tp Y) (mm D glX Xi) d a'); [apply mm_assoc|].
    transitivity (sum D (fun b => tp Y d b * rinj (lB b) * delta b a')).
    { apply sum_ext. intros q Hq. transitivity (tp Y d q * (rinj (lB q) * mm D X Xi q a')); [unfold mm, glX; f_equal; rewrite sum_mul_l; apply sum_ext; intros; ring|]. rewrite HX by assumption. ring. }
    apply (sum_delta_r D a' (fun b => tp Y d b * rinj (lB b))). exact Ha'. }
  transitivity (mm l (ad gH) gH a a' * rinj (lB a')); [reflexivity|].
  assert (E0 : forall i j, ad gH i j = mm D (ad (tp Y)) U i j).
  { intros i j. unfold gH. rewrite mm_ad. apply mm_ext_r. intros k _. unfold ad. apply kconj_inv. }
  transitivity (mm D (ad (tp Y)) (mm l U gH) a a' * rinj (lB a')).
  { f_equal. rewrite <- mm_assoc. apply mm_ext_l. intros k _. apply E0. }
  unfold mm at 1. rewrite !sum_mul_r. apply sum_ext. intros d Hd. unfold ad, tp. transitivity (kconj (Y a d) * (mm l U gH d a' * rinj (lB a'))); [ring|]. rewrite E by exact Hd. ring.
Qed.

End Gauge.

Section Gauge2.
Context {RS : RScal}.
Add Ring Kring2 : k_ring.
Variables (D l : nat) (X Xi Y Yi U V : nat -> nat -> K) (lB lam : nat -> R).
Hypothesis HX : forall i j, (i < D)%nat -> (j < D)%nat -> mm D X Xi i j = delta i j.
Hypothesis HX' : forall i j, (i < D)%nat -> (j < D)%nat -> mm D Xi X i j = delta i j.
Hypothesis HY : forall i j, (i < D)%nat -> (j < D)%nat -> mm D Y Yi i j = delta i j.
Hypothesis HY' : forall i j, (i < D)%nat -> (j < D)%nat -> mm D Yi Y i j = delta i j.
Hypothesis HU : forall i j, (i < l)%nat -> (j < l)%nat -> mm D (ad U) U i j = delta i j.
Hypothesis HV : forall i j, (i < l)%nat -> (j < l)%nat -> mm D V (ad V) i j = delta i j.
Hypothesis Haux : forall i j, (i < D)%nat -> (j < D)%nat -> gaux D X Y lB i j = sum l (fun k => U i k * rinj (lam k) * V k j).

(** W X X^dagger W^dagger = 1 *)
Lemma WXXW x x' : (x < l)%nat -> (x' < l)%nat ->
  sum D (fun a => sum D (fun a' => gW D Xi V x a * sum D (fun k => X a k * kconj (X a' k)) * kconj (gW D Xi V x' a'))) = delta x x'.
Proof.
  intros Hx Hx'. rewrite <- (HV x x' Hx Hx').
  assert (E : forall x k, (k < D)%nat -> mm D (gW D Xi V) X x k = V x k).
  { intros y k Hk. unfold gW. rewrite mm_assoc. apply mm_id_r; [exact Hk|]. intros q Hq. apply HX'; assumption. }
  transitivity (sum D (fun k => mm D (gW D Xi V) X x k * kconj (mm D (gW D Xi V) X x' k))).
  2:{ apply sum_ext. intros k Hk. rewrite !E by exact Hk. reflexivity. }
  transitivity (sum D (fun a => sum D (fun a' => sum D (fun k => gW D Xi V x a * X a k * (kconj (X a' k) * kconj (gW D Xi V x' a')))))).
  { apply sum_ext. intros a _. apply sum_ext. intros a' _. rewrite sum_mul_l, sum_mul_r. apply sum_ext. intros k _. ring. }
  transitivity (sum D (fun a => sum D (fun k => sum D (fun a' => gW D Xi V x a * X a k * (kconj (X a' k) * kconj (gW D Xi V x' a')))))).
  { apply sum_ext. intros a _. apply sum_swap. }
  rewrite sum_swap. apply sum_ext. intros k _. unfold mm. rewrite sum_conj, sum_mul_r. apply sum_ext. intros a _. rewrite sum_mul_l. apply sum_ext. intros a' _. rewrite kconj_mul. ring.
Qed.

(** lB Z Z^dagger = lB X X^dagger *)
Lemma lZZ b b' : (b < D)%nat -> (b' < D)%nat ->
  rinj (lB b) * sum l (fun y => gZ D X V b y * kconj (gZ D X V b' y)) = rinj (lB b) * sum D (fun k => X b k * kconj (X b' k)).
Proof.
  intros Hb Hb'.
  assert (E : forall k, (k < D)%nat -> mm l (glZ D X V lB) V b k = rinj (lB b) * X b k).
  { intros k Hk. transitivity (mm l (glZ D X V lB) (mm D (gW D Xi V) X) b k).
    { apply mm_ext_r. intros q Hq. unfold gW. rewrite mm_assoc. symmetry. apply mm_id_r; [exact Hk|]. intros p Hp. apply HX'; assumption. }
    rewrite <- mm_assoc. transitivity (mm D (fun b a => rinj (lB b) * delta b a) X b k).
    { apply mm_ext_l. intros a Ha. apply (gZW D l X Xi Y Yi U V lB lam HX HY HU HV Haux); assumption. }
    unfold mm. rewrite (sum_ext D _ (fun a => delta b a * (rinj (lB b) * X a k))) by (intros; ring). apply (sum_delta_l' D b (fun a => rinj (lB b) * X a k)). exact Hb. }
  transitivity (sum l (fun y => glZ D X V lB b y * kconj (mm D X (ad V) b' y))).
  { rewrite sum_mul_l. apply sum_ext. intros y _. unfold glZ. unfold gZ. ring. }
  transitivity (sum D (fun k => mm l (glZ D X V lB) V b k * kconj (X b' k))).
  2:{ rewrite sum_mul_l. apply sum_ext. intros k Hk. rewrite E by exact Hk. ring. }
  transitivity (sum l (fun y => sum D (fun k => glZ D X V lB b y * V y k * kconj (X b' k)))).
  { apply sum_ext. intros y _. unfold mm. rewrite sum_conj, sum_mul_l. apply sum_ext. intros k _. unfold ad. rewrite kconj_mul, kconj_inv. ring. }
  rewrite sum_swap. apply sum_ext. intros k _. unfold mm. rewrite sum_mul_r. reflexivity.
Qed.

(** J^dagger conj(Y Y^dagger) J = 1 *)
Lemma JYYJ y y' : (y < l)%nat -> (y' < l)%nat ->
  sum D (fun b => sum D (fun b' => kconj (gJ D Yi U b y) * sum D (fun d => kconj (Y b d) * Y b' d) * gJ D Yi U b' y')) = delta y y'.
Proof.
  intros Hy Hy'. rewrite <- (HU y y' Hy Hy').
  assert (E : forall d y, (d < D)%nat -> mm D (tp Y) (gJ D Yi U) d y = U d y).
  { intros d z Hd. unfold gJ. rewrite <- mm_assoc. apply mm_id_l; [exact Hd|]. intros q Hq. apply (Yt_id' D Y Yi HY'); assumption. }
  transitivity (sum D (fun d => kconj (mm D (tp Y) (gJ D Yi U) d y) * mm D (tp Y) (gJ D Yi U) d y')).
  2:{ apply sum_ext. intros k Hk. rewrite !E by exact Hk. reflexivity. }
  transitivity (sum D (fun b => sum D (fun b' => sum D (fun d => kconj (gJ D Yi U b y) * kconj (Y b d) * (Y b' d * gJ D Yi U b' y'))))).
  { apply sum_ext. intros a _. apply sum_ext. intros a' _. rewrite sum_mul_l, sum_mul_r. apply sum_ext. intros k _. ring. }
  transitivity (sum D (fun b => sum D (fun d => sum D (fun b' => kconj (gJ D Yi U b y) * kconj (Y b d) * (Y b' d * gJ D Yi U b' y'))))).
  { apply sum_ext. intros a _. apply sum_swap. }
  rewrite sum_swap. apply sum_ext. intros d _. unfold mm, tp. rewrite sum_conj, sum_mul_r. apply sum_ext. intros b _. rewrite sum_mul_l. apply sum_ext. intros b' _. rewrite kconj_mul. ring.
Qed.

End Gauge2.
