(** apply_canonical computes the same state as apply *)
From Coq Require Import Reals Lra Bool List Arith ZArith Lia Ring.
From Verif Require Import Scalar ScalarFacts RScal Tensor TensorFacts Spec MpsModel MpsFacts EnvFacts ExpectedFacts
  StateFacts StateFacts2 MpoSpec MpoModel MpoFacts MpoMatrix CanonSpec CanonModel TruncFacts SplitFacts CanonFacts CanonSweep CanonNorm CanonProps.
Import ListNotations.
Local Open Scope K_scope.

Section Facts.
Context {RS : RScal}.
Add Ring Kring : k_ring.

(** Right part of the operator applied to the right part of the state. *)
Definition tail_apply (O : mpo) (psi : mps) (is : list nat) (x y : nat) : K :=
  sumcfg (pdims psi) (fun js => mchain O is js x 0 * chain psi js y 0).

Lemma tail_apply_cons P O A psi i is x y c1 dj di c2 a1 a2 :
  dims P = [c1; dj; di; c2] -> dims A = [a1; di; a2] ->
  tail_apply (P :: O) (A :: psi) (i :: is) x y =
  sum a2 (fun w => sum c2 (fun z => sum di (fun v => get P [x; i; v; z] * get A [y; v; w]) * tail_apply O psi is z w)).
Proof.
  intros HP HA. unfold tail_apply. cbn [pdims map sumcfg mchain chain].
  replace (dim A 1) with di by (unfold dim; rewrite HA; reflexivity).
  replace (dim A 2) with a2 by (unfold dim; rewrite HA; reflexivity).
  replace (dim P 3) with c2 by (unfold dim; rewrite HP; reflexivity). fold (pdims psi).
  transitivity (sum di (fun v => sum a2 (fun w => sum c2 (fun z => sumcfg (pdims psi) (fun js =>
     get P [x; i; v; z] * get A [y; v; w] * (mchain O is js z 0 * chain psi js w 0)))))).
  - apply sum_ext. intros v Hv.
    transitivity (sumcfg (pdims psi) (fun js => sum a2 (fun w => sum c2 (fun z =>
        get P [x; i; v; z] * get A [y; v; w] * (mchain O is js z 0 * chain psi js w 0))))).
    + apply sumcfg_ext. intros js Hjs. rewrite sum_mul_l. apply sum_ext. intros w Hw. rewrite sum_mul_r.
      apply sum_ext. intros z Hz. ring.
    + rewrite sumcfg_sum_swap. apply sum_ext. intros w Hw. apply sumcfg_sum_swap.
  - rewrite sum_swap. apply sum_ext. intros w Hw. rewrite sum_swap. apply sum_ext. intros z Hz.
    rewrite sum_mul_r. apply sum_ext. intros v Hv. rewrite sumcfg_mul_l. reflexivity.
Qed.

Lemma right_site_dims b L O A c1 dj di c2 a1 a2 :
  dims L = [b; c1; a1] -> dims O = [c1; dj; di; c2] -> dims A = [a1; di; a2] ->
  dims (apply_right_site b L O A) = [b; dj; c2 * a2]%nat /\ wf (apply_right_site b L O A).
Proof.
  intros HL HO HA. unfold apply_right_site, dim. rewrite HO, HA. cbn [nth]. split; [reflexivity|].
  apply wf_reshape; [apply wf_mk|]. unfold foldin. rewrite dims_mk. cbn [dims reshape firstn skipn remove_nth app].
  cbn. ring.
Qed.

Lemma right_site_get b L O A c1 dj di c2 a1 a2 p j z w :
  dims L = [b; c1; a1] -> dims O = [c1; dj; di; c2] -> dims A = [a1; di; a2] ->
  (p < b)%nat -> (j < dj)%nat -> (z < c2)%nat -> (w < a2)%nat ->
  get (apply_right_site b L O A) [p; j; z + c2 * w]%nat =
  sum c1 (fun x => sum a1 (fun y => get L [p; x; y] * sum di (fun v => get O [x; j; v; z] * get A [y; v; w]))).
Proof.
  intros HL HO HA Hp Hj Hz Hw. unfold apply_right_site, dim. rewrite HO, HA. cbn [nth].
  rewrite (get_reshape _ _ _ [p; j; z; w]).
  2:{ unfold foldin. rewrite dims_mk. cbn. ring. }
  unfold foldin, rank, dim. cbn [dims reshape length Nat.sub firstn skipn remove_nth app nth].
  rewrite get_mk by (apply in_range_4; assumption). cbn [firstn skipn app insert_nth].
  rewrite sum_merge, sum_swap. apply sum_ext. intros x Hx.
  transitivity (sum di (fun v => get O [x; j; v; z] * sum a1 (fun y => get L [p; x; y] * get A [y; v; w]))).
  - apply sum_ext. intros v Hv. f_equal.
    + rewrite (get_reshape _ _ _ [x; v; j; z]).
      2:{ unfold permute. rewrite dims_mk, HO. cbn. ring. }
      unfold permute. rewrite HO. cbn [swap_nth replace_nth nth].
      rewrite get_mk by (apply in_range_4; assumption). reflexivity.
    + assert (HF : dims (fold L 2 A 0) = [b; c1; di; a2]) by (unfold fold; rewrite dims_mk, HL, HA; reflexivity).
      rewrite HL. cbn [length Nat.sub].
      rewrite (get_reshape _ _ _ [p; x; v; w]) by (rewrite HF; cbn; ring).
      unfold fold, rank, dim. rewrite HL, HA. cbn [length Nat.sub remove_nth app nth].
      rewrite get_mk by (apply in_range_4; assumption). reflexivity.
  - transitivity (sum di (fun v => sum a1 (fun y => get L [p; x; y] * (get O [x; j; v; z] * get A [y; v; w])))).
    + apply sum_ext. intros v Hv. rewrite sum_mul_l. apply sum_ext. intros; ring.
    + rewrite sum_swap. apply sum_ext. intros y Hy. rewrite sum_mul_l. reflexivity.
Qed.

(** Environment on the left contracted with the rest. *)
Definition rest (L : tensor) (c1 a1 : nat) (O : mpo) (psi : mps) (p : nat) (is : list nat) : K :=
  sum c1 (fun x => sum a1 (fun y => get L [p; x; y] * tail_apply O psi is x y)).

Lemma rest_cons b L P O A psi c1 dj di c2 a1 a2 p i is :
  dims L = [b; c1; a1] -> dims P = [c1; dj; di; c2] -> dims A = [a1; di; a2] ->
  (p < b)%nat -> (i < dj)%nat ->
  rest L c1 a1 (P :: O) (A :: psi) p (i :: is) =
  sum (c2 * a2) (fun r => get (apply_right_site b L P A) [p; i; r] * tail_apply O psi is (r mod c2) (r / c2)).
Proof.
  intros HL HP HA Hp Hi. unfold rest.
  destruct c2 as [|c2'].
  { cbn [Nat.mul]. cbn [sum]. apply sum_zero. intros x Hx. apply sum_zero. intros y Hy.
    rewrite (tail_apply_cons P O A psi i is x y c1 dj di 0 a1 a2 HP HA).
    rewrite (sum_zero a2); [ring|]. intros; reflexivity. }
  set (c2 := S c2') in *.
  rewrite sum_merge.
  transitivity (sum c1 (fun x => sum a1 (fun y => sum a2 (fun w => sum c2 (fun z =>
    get L [p; x; y] * sum di (fun v => get P [x; i; v; z] * get A [y; v; w]) * tail_apply O psi is z w))))).
  - apply sum_ext. intros x Hx. apply sum_ext. intros y Hy.
    rewrite (tail_apply_cons P O A psi i is x y c1 dj di c2 a1 a2 HP HA).
    rewrite sum_mul_l. apply sum_ext. intros w Hw. rewrite sum_mul_l. apply sum_ext. intros z Hz. ring.
  - transitivity (sum a2 (fun w => sum c2 (fun z => sum c1 (fun x => sum a1 (fun y =>
      get L [p; x; y] * sum di (fun v => get P [x; i; v; z] * get A [y; v; w]) * tail_apply O psi is z w))))).
    + transitivity (sum c1 (fun x => sum a2 (fun w => sum c2 (fun z => sum a1 (fun y =>
        get L [p; x; y] * sum di (fun v => get P [x; i; v; z] * get A [y; v; w]) * tail_apply O psi is z w))))).
      * apply sum_ext. intros x Hx. rewrite sum_swap. apply sum_ext. intros w Hw. apply sum_swap.
      * rewrite sum_swap. apply sum_ext. intros w Hw. apply sum_swap.
    + apply sum_ext. intros w Hw. apply sum_ext. intros z Hz.
      rewrite (right_site_get b L P A c1 dj di c2 a1 a2) by assumption.
      replace ((z + c2 * w) mod c2)%nat with z by (rewrite Nat.mul_comm, Nat.mod_add, Nat.mod_small; lia).
      replace ((z + c2 * w) / c2)%nat with w by (rewrite Nat.mul_comm, Nat.div_add, Nat.div_small; lia).
      rewrite sum_mul_r. apply sum_ext. intros x Hx. rewrite sum_mul_r. reflexivity.
Qed.

Variable svd : tensor -> tensor * list R * tensor.
Variable flag : R.
Hypothesis Hsvd : svd_contract svd.

Definition nonzero_rest (b c1 a1 : nat) (L : tensor) (O : mpo) (psi : mps) : Prop :=
  exists p is, (p < b)%nat /\ in_range (odims O) is /\ rest L c1 a1 O psi p is <> 0.

Lemma div_lt' r c a : (r < c * a)%nat -> (r / c < a)%nat.
Proof. intros H. apply Nat.div_lt_upper_bound; nia. Qed.

Lemma sum_nz n f : sum n f <> 0 -> exists k, (k < n)%nat /\ f k <> 0.
Proof.
  induction n as [|n IH]; cbn; intros H; [congruence|].
  destruct (keqb_spec (f n) 0) as [E|E].
  - rewrite E in H. destruct IH as (k & Hk & Hf); [intros E2; apply H; rewrite E2; ring|].
    exists k. split; [lia|exact Hf].
  - exists n. split; [lia|exact E].
Qed.

Lemma rightwards_ok truncate psi : forall O b L c1 a1,
  psi <> [] -> mlinked c1 O 1 -> linked a1 psi 1 -> idims O = pdims psi ->
  (0 < b)%nat -> (0 < c1)%nat -> (0 < a1)%nat ->
  dims L = [b; c1; a1] -> wf L ->
  (eff flag truncate <> 0%R \/ (exact flag truncate /\ nonzero_rest b c1 a1 L O psi)) ->
  exists chi, apply_rightwards svd flag truncate b L O psi = Ok chi /\ linked b chi 1 /\ pdims chi = odims O /\
    (forall j, (S j < length psi)%nat -> left_isometry (site chi j)) /\
    (exact flag truncate -> forall p is, (p < b)%nat -> in_range (odims O) is ->
       chain chi is p 0 = rest L c1 a1 O psi p is).
Proof.
  induction psi as [|A psi IH]; intros O b L c1 a1 Hne HO Hp Hd Hb Hc1 Ha1 HL HwL Hn; [congruence|].
  destruct O as [|P O]; [discriminate|]. injection Hd as Hd1 Hd.
  destruct HO as (dj & di & c2 & HP & HwP & Hj0 & Hi0 & Hc0 & HO).
  destruct Hp as (d' & a2 & HA & HwA & Hd0' & Ha0 & Hp).
  assert (d' = di) by (unfold dim in Hd1; rewrite HP, HA in Hd1; cbn in Hd1; congruence). subst d'.
  destruct (right_site_dims b L P A c1 dj di c2 a1 a2 HL HP HA) as (HC & HwC).
  set (C := apply_right_site b L P A) in *.
  destruct psi as [|B psi].
  - (* last site *)
    destruct O as [|? ?]; [|discriminate]. cbn in HO, Hp. subst c2 a2.
    exists [C]. split; [reflexivity|].
    split; [exists dj, 1%nat; cbn in HC; repeat split; auto; lia|].
    split; [cbn [pdims odims map]; replace (dim C 1) with dj by (unfold dim; rewrite HC; reflexivity); unfold dim; rewrite HP; reflexivity|].
    split; [intros j Hj; cbn in Hj; lia|].
    intros _ p is Hp His. cbn [odims map] in His.
    apply in_range_cons_inv in His. destruct His as (i & is' & -> & Hi & His).
    apply in_range_nil_inv in His. subst is'. unfold dim in Hi. rewrite HP in Hi. cbn in Hi.
    rewrite (rest_cons b L P [] A [] c1 dj di 1 a1 1) by assumption. fold C.
    assert (HdC : dim C 2 = 1%nat) by (unfold dim; rewrite HC; reflexivity).
    cbn [chain]. rewrite HdC. cbn [Nat.mul Nat.add sum].
    assert (HT : tail_apply [] [] [] 0 0 = 1 * 1) by reflexivity.
    assert (0 mod 1 = 0 /\ 0 / 1 = 0)%nat as (-> & ->) by (split; reflexivity). rewrite HT.
    change (delta 0 0) with 1. ring.
  - assert (Hne' : B :: psi <> []) by discriminate.
    assert (Hsr : exists U V l e, split svd flag C 1 truncate = Ok (U, V) /\
              split_right_spec C b dj (c2 * a2) U V l e /\ (0 < l)%nat /\ (exact flag truncate -> forall x y z, e x y z = 0)).
    { apply split_right_final; auto; try nia.
      destruct Hn as [Hn|(He & p & is & Hp' & His & Hnz)]; [left; exact Hn|right].
      cbn [odims map] in His. apply in_range_cons_inv in His. destruct His as (i & is' & -> & Hi & His).
      unfold dim in Hi. rewrite HP in Hi. cbn in Hi.
      rewrite (rest_cons b L P O A (B :: psi) c1 dj di c2 a1 a2) in Hnz by assumption. fold C in Hnz.
      apply sum_nz in Hnz. destruct Hnz as (r & Hr & Hnz).
      exists p, i, r. unfold dim. rewrite HC. cbn [nth]. repeat split; auto.
      intros E. apply Hnz. rewrite E. ring. }
    destruct Hsr as (U & V & l & e & Es & (HU & HwU & (HV1 & HV2) & Hl & HI & Hg) & Hl0 & He0).
    assert (HdV : dim V 0 = l) by (unfold dim; rewrite HV1; reflexivity).
    assert (HdP : dim P 3 = c2) by (unfold dim; rewrite HP; reflexivity).
    assert (HdA : dim A 2 = a2) by (unfold dim; rewrite HA; reflexivity).
    set (L' := reshape V [l; c2; a2]).
    assert (HwL' : wf L') by (apply wf_reshape; [exact HV2|rewrite HV1; cbn; ring]).
    assert (HgL' : forall k z w, (z < c2)%nat -> get L' [k; z; w] = get V [k; z + c2 * w]%nat).
    { intros k z w Hz. unfold L'. apply get_reshape. rewrite HV1. cbn. ring. }
    assert (Hrest : exact flag truncate -> forall p i is, (p < b)%nat -> (i < dj)%nat ->
       rest L c1 a1 (P :: O) (A :: B :: psi) p (i :: is) =
       sum l (fun k => get U [p; i; k] * rest L' c2 a2 O (B :: psi) k is)).
    { intros He p i is Hp' Hi.
      rewrite (rest_cons b L P O A (B :: psi) c1 dj di c2 a1 a2) by assumption. fold C.
      transitivity (sum (c2 * a2) (fun r => sum l (fun k => get U [p; i; k] * (get V [k; r] *
          tail_apply O (B :: psi) is (r mod c2) (r / c2))))).
      - apply sum_ext. intros r Hr. rewrite Hg by assumption. rewrite He0 by exact He.
        transitivity (sum l (fun c => get U [p; i; c] * get V [c; r]) * tail_apply O (B :: psi) is (r mod c2) (r / c2)); [ring|].
        rewrite sum_mul_r. apply sum_ext. intros; ring.
      - rewrite sum_swap. apply sum_ext. intros k Hk. rewrite <- sum_mul_l. f_equal.
        unfold rest. rewrite sum_merge, sum_swap. apply sum_ext. intros z Hz. apply sum_ext. intros w Hw.
        rewrite HgL' by assumption.
        replace ((z + c2 * w) mod c2)%nat with z by (rewrite Nat.mul_comm, Nat.mod_add, Nat.mod_small; lia).
        replace ((z + c2 * w) / c2)%nat with w by (rewrite Nat.mul_comm, Nat.div_add, Nat.div_small; lia).
        reflexivity. }
    destruct (IH O l L' c2 a2 Hne' HO Hp Hd Hl0 Hc0 Ha0 eq_refl HwL') as (chi & E & Hlk & Hpd & HIso & Hch).
    { destruct Hn as [Hn|(He & p & is & Hp' & His & Hnz)]; [left; exact Hn|right]. split; [exact He|].
      cbn [odims map] in His. apply in_range_cons_inv in His. destruct His as (i & is' & -> & Hi & His).
      unfold dim in Hi. rewrite HP in Hi. cbn in Hi.
      rewrite (Hrest He) in Hnz by assumption. apply sum_nz in Hnz. destruct Hnz as (k & Hk & Hnz).
      exists k, is'. split; [exact Hk|]. split; [exact His|]. intros E. apply Hnz. rewrite E. ring. }
    exists (U :: chi). split.
    { cbn [apply_rightwards]. fold C. rewrite Es. cbn [bind]. rewrite HdV, HdP, HdA. fold L'. rewrite E. reflexivity. }
    split; [exists dj, l; repeat split; auto|].
    split; [cbn [pdims map odims]; fold (pdims chi) (odims O); rewrite Hpd; unfold dim; rewrite HU, HP; reflexivity|].
    split.
    { intros j Hj. destruct j as [|j]; [exact HI|]. apply (HIso j). cbn in *. lia. }
    intros He p is Hp' His. cbn [odims map] in His.
    apply in_range_cons_inv in His. destruct His as (i & is' & -> & Hi & His).
    unfold dim in Hi. rewrite HP in Hi. cbn in Hi.
    rewrite (Hrest He) by assumption. cbn [chain]. replace (dim U 2) with l by (unfold dim; rewrite HU; reflexivity).
    apply sum_ext. intros k Hk. rewrite (Hch He) by assumption. reflexivity.
Qed.

(** ** Leftwards *)
Definition head_apply (O : mpo) (psi : mps) (is : list nat) (x y : nat) : K :=
  sumcfg (pdims psi) (fun js => mchain O is js 0 x * chain psi js 0 y).

Lemma in_range_snoc ds d is : in_range (ds ++ [d]) is <-> exists is' i, is = is' ++ [i] /\ in_range ds is' /\ (i < d)%nat.
Proof.
  split.
  - intros H. apply Forall2_app_inv_l in H. destruct H as (l1 & l2 & H1 & H2 & ->).
    destruct l2 as [|i l2]; [inversion H2|]. exists l1, i.
    assert (Hl2 : l2 = []) by (inversion H2; subst; match goal with H : Forall2 _ [] l2 |- _ => inversion H end; reflexivity).
    subst l2. split; [reflexivity|]. split; [exact H1|]. inversion H2; assumption.
  - intros (is' & i & -> & H1 & H2). apply Forall2_app; [exact H1|constructor; [exact H2|constructor]].
Qed.

Lemma head_apply_snoc P O A psi i is x y m n c1 dj di c2 a1 a2 :
  mlinked m O c1 -> linked n psi a1 -> (0 < m)%nat -> (0 < n)%nat -> idims O = pdims psi -> length is = length O ->
  dims P = [c1; dj; di; c2] -> dims A = [a1; di; a2] -> (x < c2)%nat -> (y < a2)%nat ->
  head_apply (O ++ [P]) (psi ++ [A]) (is ++ [i]) x y =
  sum a1 (fun w => sum c1 (fun z => head_apply O psi is z w * sum di (fun v => get P [z; i; v; x] * get A [w; v; y]))).
Proof.
  intros HO Hp Hm Hn Hd Hl HP HA Hx Hy. unfold head_apply. rewrite pdims_app, sumcfg_app. cbn [pdims map sumcfg].
  replace (dim A 1) with di by (unfold dim; rewrite HA; reflexivity). fold (pdims psi).
  transitivity (sumcfg (pdims psi) (fun js => sum di (fun v => sum a1 (fun w => sum c1 (fun z =>
     mchain O is js 0 z * chain psi js 0 w * (get P [z; i; v; x] * get A [w; v; y])))))).
  - apply sumcfg_ext. intros js Hjs. apply sum_ext. intros v Hv.
    pose proof (in_range_length _ _ Hjs) as Hlj.
    assert (Hlo : length js = length O) by (rewrite Hlj, <- Hd; apply length_idims).
    rewrite (mchain_snoc m O c1 P dj di c2) by assumption.
    rewrite (chain_snoc n psi a1 A di a2) by (try assumption; rewrite Hlj; apply length_pdims).
    rewrite sum_mul_l. apply sum_ext. intros w Hw. rewrite sum_mul_r. apply sum_ext. intros z Hz. ring.
  - transitivity (sum a1 (fun w => sum c1 (fun z => sum di (fun v => sumcfg (pdims psi) (fun js =>
       mchain O is js 0 z * chain psi js 0 w * (get P [z; i; v; x] * get A [w; v; y])))))).
    + rewrite sumcfg_sum_swap.
      transitivity (sum di (fun v => sum a1 (fun w => sum c1 (fun z => sumcfg (pdims psi) (fun js =>
       mchain O is js 0 z * chain psi js 0 w * (get P [z; i; v; x] * get A [w; v; y])))))).
      * apply sum_ext. intros v Hv. rewrite sumcfg_sum_swap. apply sum_ext. intros w Hw. apply sumcfg_sum_swap.
      * rewrite sum_swap. apply sum_ext. intros w Hw. apply sum_swap.
    + apply sum_ext. intros w Hw. apply sum_ext. intros z Hz. rewrite sum_mul_l. apply sum_ext. intros v Hv.
      rewrite sumcfg_mul_r. reflexivity.
Qed.

Lemma left_site_dims b L O A c1 dj di c2 a1 a2 :
  dims L = [a2; c2; b] -> dims O = [c1; dj; di; c2] -> dims A = [a1; di; a2] ->
  dims (apply_left_site b L O A) = [a1 * c1; dj; b]%nat /\ wf (apply_left_site b L O A).
Proof.
  intros HL HO HA. unfold apply_left_site, dim. rewrite HO, HA. cbn [nth]. split; [reflexivity|].
  apply wf_reshape; [apply wf_mk|]. unfold foldin. rewrite dims_mk. cbn [dims reshape firstn skipn remove_nth app].
  cbn. ring.
Qed.

Lemma left_site_get b L O A c1 dj di c2 a1 a2 p j z w :
  dims L = [a2; c2; b] -> dims O = [c1; dj; di; c2] -> dims A = [a1; di; a2] ->
  (p < b)%nat -> (j < dj)%nat -> (z < c1)%nat -> (w < a1)%nat ->
  get (apply_left_site b L O A) [w + a1 * z; j; p]%nat =
  sum c2 (fun x => sum a2 (fun y => get L [y; x; p] * sum di (fun v => get O [z; j; v; x] * get A [w; v; y]))).
Proof.
  intros HL HO HA Hp Hj Hz Hw. unfold apply_left_site, dim. rewrite HO, HA. cbn [nth].
  rewrite (get_reshape _ _ _ [w; z; j; p]).
  2:{ unfold foldin. rewrite dims_mk. cbn. ring. }
  unfold foldin, rank, dim. cbn [dims reshape length Nat.sub firstn skipn remove_nth app nth].
  rewrite get_mk by (apply in_range_4; assumption). cbn [firstn skipn app insert_nth].
  rewrite sum_merge. apply sum_ext. intros x Hx.
  assert (HF : dims (fold A 2 L 0) = [a1; di; c2; b]) by (unfold fold; rewrite dims_mk, HL, HA; reflexivity).
  transitivity (sum di (fun v => get O [z; j; v; x] * sum a2 (fun y => get A [w; v; y] * get L [y; x; p]))).
  - apply sum_ext. intros v Hv. f_equal.
    + apply get_reshape. rewrite HO. cbn. ring.
    + rewrite (get_reshape _ _ _ [w; v; x; p]) by (rewrite HF; cbn; ring).
      unfold fold, rank, dim. rewrite HL, HA. cbn [length Nat.sub remove_nth app nth].
      rewrite get_mk by (apply in_range_4; assumption). reflexivity.
  - transitivity (sum di (fun v => sum a2 (fun y => get L [y; x; p] * (get O [z; j; v; x] * get A [w; v; y])))).
    + apply sum_ext. intros v Hv. rewrite sum_mul_l. apply sum_ext. intros; ring.
    + rewrite sum_swap. apply sum_ext. intros y Hy. rewrite sum_mul_l. reflexivity.
Qed.

Definition lrest (L : tensor) (c2 a2 : nat) (O : mpo) (psi : mps) (p : nat) (is : list nat) : K :=
  sum c2 (fun x => sum a2 (fun y => head_apply O psi is x y * get L [y; x; p])).

Lemma lrest_snoc b L P O A psi m n c1 dj di c2 a1 a2 p i is :
  mlinked m O c1 -> linked n psi a1 -> (0 < m)%nat -> (0 < n)%nat -> idims O = pdims psi -> length is = length O ->
  dims L = [a2; c2; b] -> dims P = [c1; dj; di; c2] -> dims A = [a1; di; a2] -> (0 < a1)%nat ->
  (p < b)%nat -> (i < dj)%nat ->
  lrest L c2 a2 (O ++ [P]) (psi ++ [A]) p (is ++ [i]) =
  sum (a1 * c1) (fun r => head_apply O psi is (r / a1) (r mod a1) * get (apply_left_site b L P A) [r; i; p]).
Proof.
  intros HO Hps Hm Hn Hd Hl HL HP HA Ha1 Hp Hi. unfold lrest. rewrite sum_merge.
  transitivity (sum c2 (fun x => sum a2 (fun y => sum a1 (fun w => sum c1 (fun z =>
    get L [y; x; p] * sum di (fun v => get P [z; i; v; x] * get A [w; v; y]) * head_apply O psi is z w))))).
  - apply sum_ext. intros x Hx. apply sum_ext. intros y Hy.
    rewrite (head_apply_snoc P O A psi i is x y m n c1 dj di c2 a1 a2) by assumption.
    rewrite sum_mul_r. apply sum_ext. intros w Hw. rewrite sum_mul_r. apply sum_ext. intros z Hz. ring.
  - transitivity (sum a1 (fun w => sum c1 (fun z => sum c2 (fun x => sum a2 (fun y =>
      get L [y; x; p] * sum di (fun v => get P [z; i; v; x] * get A [w; v; y]) * head_apply O psi is z w))))).
    + transitivity (sum c2 (fun x => sum a1 (fun w => sum c1 (fun z => sum a2 (fun y =>
        get L [y; x; p] * sum di (fun v => get P [z; i; v; x] * get A [w; v; y]) * head_apply O psi is z w))))).
      * apply sum_ext. intros x Hx. rewrite sum_swap. apply sum_ext. intros w Hw. apply sum_swap.
      * rewrite sum_swap. apply sum_ext. intros w Hw. apply sum_swap.
    + rewrite sum_swap. apply sum_ext. intros z Hz. apply sum_ext. intros w Hw.
      rewrite (left_site_get b L P A c1 dj di c2 a1 a2) by assumption.
      replace ((w + a1 * z) mod a1)%nat with w by (rewrite Nat.mul_comm, Nat.mod_add, Nat.mod_small; lia).
      replace ((w + a1 * z) / a1)%nat with z by (rewrite Nat.mul_comm, Nat.div_add, Nat.div_small; lia).
      rewrite sum_mul_l. apply sum_ext. intros x Hx. rewrite sum_mul_l. apply sum_ext. intros y Hy. ring.
Qed.

Definition nonzero_lrest (b c2 a2 : nat) (L : tensor) (O : mpo) (psi : mps) : Prop :=
  exists p is, (p < b)%nat /\ in_range (odims O) is /\ lrest L c2 a2 O psi p is <> 0.

Lemma leftwards_ok truncate rpsi : forall rO b L c2 a2,
  rpsi <> [] -> mlinked 1 (rev rO) c2 -> linked 1 (rev rpsi) a2 -> idims (rev rO) = pdims (rev rpsi) ->
  (0 < b)%nat -> (0 < c2)%nat -> (0 < a2)%nat ->
  dims L = [a2; c2; b] -> wf L ->
  (eff flag truncate <> 0%R \/ (exact flag truncate /\ nonzero_lrest b c2 a2 L (rev rO) (rev rpsi))) ->
  exists rchi, apply_leftwards svd flag truncate b L rO rpsi = Ok rchi /\
    linked 1 (rev rchi) b /\ pdims (rev rchi) = odims (rev rO) /\
    (forall j, (S j < length rpsi)%nat -> right_isometry (nth j rchi empty)) /\
    (exact flag truncate -> forall p is, (p < b)%nat -> in_range (odims (rev rO)) is ->
       chain (rev rchi) is 0 p = lrest L c2 a2 (rev rO) (rev rpsi) p is).
Proof.
  induction rpsi as [|A rpsi IH]; intros rO b L c2 a2 Hne HO Hp Hd Hb Hc2 Ha2 HL HwL Hn; [congruence|].
  destruct rO as [|P rO].
  { cbn [rev idims map] in Hd. apply (f_equal (@length _)) in Hd. rewrite length_pdims, app_length in Hd. cbn in Hd. lia. }
  cbn [rev] in *.
  assert (Hd' : idims (rev rO) = pdims (rev rpsi) /\ dim P 2 = dim A 1).
  { unfold idims, pdims in *. rewrite !map_app in Hd. cbn [map] in Hd. apply app_inj_tail in Hd. exact Hd. }
  destruct Hd' as (Hd' & Hd1).
  apply mlinked_app in HO. destruct HO as (c1 & HO & (dj & di & c2' & HP & HwP & Hj0 & Hi0 & Hc0 & Hc2')).
  apply linked_app in Hp. destruct Hp as (a1 & Hp & (d' & a2' & HA & HwA & Hd0' & Ha0 & Ha2')).
  cbn in Hc2', Ha2'. subst c2' a2'.
  assert (d' = di) by (unfold dim in Hd1; rewrite HP, HA in Hd1; cbn in Hd1; congruence). subst d'.
  assert (Hc1p : (0 < c1)%nat) by (apply (mlinked_pos 1 (rev rO) c1); [lia|exact HO]).
  assert (Ha1p : (0 < a1)%nat) by (apply (linked_pos 1 (rev rpsi) a1); [exact Hp|lia]).
  destruct (left_site_dims b L P A c1 dj di c2 a1 a2 HL HP HA) as (HC & HwC).
  set (C := apply_left_site b L P A) in *.
  assert (Hod : odims (rev rO ++ [P]) = odims (rev rO) ++ [dj]).
  { unfold odims. rewrite map_app. cbn [map]. unfold dim. rewrite HP. reflexivity. }
  assert (HdP : dim P 0 = c1) by (unfold dim; rewrite HP; reflexivity).
  assert (HdA : dim A 0 = a1) by (unfold dim; rewrite HA; reflexivity).
  destruct rpsi as [|B rpsi].
  - destruct rO as [|? ?]; [|apply (f_equal (@length _)) in Hd'; rewrite length_idims, length_pdims in Hd'; cbn in Hd'; rewrite app_length in Hd'; cbn in Hd'; lia].
    cbn in HO, Hp. subst c1 a1.
    exists [C]. split; [reflexivity|]. cbn [rev app].
    split; [exists dj, b; cbn in HC; repeat split; auto; lia|].
    split; [cbn [pdims odims map]; replace (dim C 1) with dj by (unfold dim; rewrite HC; reflexivity); unfold dim; rewrite HP; reflexivity|].
    split; [intros j Hj; cbn in Hj; lia|].
    intros _ p is Hpb His. change (odims [P]) with (odims ([] ++ [P])) in His. cbn [app odims map] in His.
    apply in_range_cons_inv in His. destruct His as (i & is' & -> & Hi & His).
    apply in_range_nil_inv in His. subst is'. unfold dim in Hi. rewrite HP in Hi. cbn in Hi.
    pose proof (lrest_snoc b L P [] A [] 1 1 1 dj di c2 1 a2 p i []) as HLS.
    cbn [app] in HLS. rewrite HLS; auto; try reflexivity. clear HLS.
    assert (HdC : dim C 2 = b) by (unfold dim; rewrite HC; reflexivity).
    fold C. cbn [chain]. rewrite HdC. cbn [Nat.mul Nat.add].
    rewrite sum_delta_r by assumption. cbn [sum].
    assert (HT : head_apply [] [] [] 0 0 = 1 * 1) by reflexivity.
    assert (0 mod 1 = 0 /\ 0 / 1 = 0)%nat as (-> & ->) by (split; reflexivity). rewrite HT. ring.
  - assert (Hne' : B :: rpsi <> []) by discriminate.
    assert (HlenO : length (rev rO) = length (rev (B :: rpsi))).
    { rewrite <- (length_idims (rev rO)), Hd'. apply length_pdims. }
    assert (Hsr : exists U V l e, split svd flag C (-1) truncate = Ok (U, V) /\
              split_left_spec C (a1 * c1) dj b U V l e /\ (0 < l)%nat /\ (exact flag truncate -> forall x y z, e x y z = 0)).
    { apply split_left_final; auto; try nia.
      destruct Hn as [Hn|(He & p & is & Hp' & His & Hnz)]; [left; exact Hn|right].
      rewrite Hod in His. apply in_range_snoc in His. destruct His as (is' & i & -> & His & Hi).
      rewrite (lrest_snoc b L P (rev rO) A (rev (B :: rpsi)) 1 1 c1 dj di c2 a1 a2) in Hnz; auto.
      2:{ rewrite (in_range_length _ _ His). apply length_odims. }
      fold C in Hnz. apply sum_nz in Hnz. destruct Hnz as (r & Hr & Hnz).
      exists r, i, p. unfold dim. rewrite HC. cbn [nth]. repeat split; auto.
      intros E. apply Hnz. rewrite E. ring. }
    destruct Hsr as (U & V & l & e & Es & (HU & HwU & (HV1 & HV2) & Hl & HI & Hg) & Hl0 & He0).
    assert (HdV : dim V 1 = l) by (unfold dim; rewrite HV1; reflexivity).
    set (L' := reshape V [a1; c1; l]).
    assert (HwL' : wf L') by (apply wf_reshape; [exact HV2|rewrite HV1; cbn; ring]).
    assert (HgL' : forall k z w, (z < a1)%nat -> get L' [z; w; k] = get V [z + a1 * w; k]%nat).
    { intros k z w Hz. unfold L'. apply get_reshape. rewrite HV1. cbn. ring. }
    assert (Hrest : exact flag truncate -> forall p i is, (p < b)%nat -> (i < dj)%nat -> length is = length (rev rO) ->
       lrest L c2 a2 (rev rO ++ [P]) (rev (B :: rpsi) ++ [A]) p (is ++ [i]) =
       sum l (fun k => lrest L' c1 a1 (rev rO) (rev (B :: rpsi)) k is * get U [k; i; p])).
    { intros He p i is Hp' Hi Hli.
      rewrite (lrest_snoc b L P (rev rO) A (rev (B :: rpsi)) 1 1 c1 dj di c2 a1 a2) by (auto; lia). fold C.
      transitivity (sum (a1 * c1) (fun r => sum l (fun k => head_apply (rev rO) (rev (B :: rpsi)) is (r / a1) (r mod a1)
          * get V [r; k] * get U [k; i; p]))).
      - apply sum_ext. intros r Hr. rewrite Hg by assumption. rewrite He0 by exact He.
        transitivity (head_apply (rev rO) (rev (B :: rpsi)) is (r / a1) (r mod a1) * sum l (fun c => get V [r; c] * get U [c; i; p])); [ring|].
        rewrite sum_mul_l. apply sum_ext. intros; ring.
      - rewrite sum_swap. apply sum_ext. intros k Hk. rewrite <- sum_mul_r. f_equal.
        unfold lrest. rewrite sum_merge. apply sum_ext. intros z Hz. apply sum_ext. intros w Hw.
        rewrite HgL' by assumption.
        replace ((w + a1 * z) mod a1)%nat with w by (rewrite Nat.mul_comm, Nat.mod_add, Nat.mod_small; lia).
        replace ((w + a1 * z) / a1)%nat with z by (rewrite Nat.mul_comm, Nat.div_add, Nat.div_small; lia).
        reflexivity. }
    destruct (IH rO l L' c1 a1 Hne' HO Hp Hd' Hl0 Hc1p Ha1p eq_refl HwL') as (chi & E & Hlk & Hpd & HIso & Hch).
    { destruct Hn as [Hn|(He & p & is & Hp' & His & Hnz)]; [left; exact Hn|right]. split; [exact He|].
      rewrite Hod in His. apply in_range_snoc in His. destruct His as (is' & i & -> & His & Hi).
      rewrite (Hrest He) in Hnz; auto.
      2:{ rewrite (in_range_length _ _ His). apply length_odims. }
      apply sum_nz in Hnz. destruct Hnz as (k & Hk & Hnz).
      exists k, is'. split; [exact Hk|]. split; [exact His|]. intros E. apply Hnz. rewrite E. ring. }
    exists (U :: chi). split.
    { cbn [apply_leftwards]. fold C. rewrite Es. cbn [bind]. rewrite HdV, HdP, HdA. fold L'. rewrite E. reflexivity. }
    cbn [rev].
    split; [apply linked_app; exists l; split; [exact Hlk|exists dj, b; repeat split; auto]|].
    split; [rewrite pdims_app, Hod, Hpd; cbn [pdims map]; unfold dim; rewrite HU; reflexivity|].
    split.
    { intros j Hj. destruct j as [|j]; [exact HI|]. apply (HIso j). cbn in *. lia. }
    intros He p is Hp' His. rewrite Hod in His.
    apply in_range_snoc in His. destruct His as (is' & i & -> & His & Hi).
    pose proof (in_range_length _ _ His) as Hli. rewrite length_odims in Hli.
    rewrite (Hrest He) by assumption.
    assert (Hlc : length is' = length (rev chi)).
    { rewrite <- (length_pdims (rev chi)), Hpd, length_odims. exact Hli. }
    rewrite (chain_snoc 1 (rev chi) l U dj b) by (auto; lia).
    apply sum_ext. intros k Hk. rewrite (Hch He) by assumption. reflexivity.
Qed.

Lemma get_ones111 : get ones111 [0; 0; 0]%nat = 1.
Proof. unfold ones111. rewrite get_mk; [reflexivity|]. apply in_range_3; lia. Qed.

(** apply_canonical in both directions *)
Lemma apply_canonical_ok truncate sense O psi : open_mpo O -> open_mps psi -> idims O = pdims psi ->
  (eff flag truncate <> 0%R \/ exists is, in_range (odims O) is /\
      sumcfg (pdims psi) (fun js => opelem O is js * amp psi js) <> 0) ->
  exists chi, apply_canonical svd flag O psi sense truncate = Ok chi /\ open_mps chi /\ pdims chi = odims O /\
    (forall j, (j < length psi)%nat ->
       if (0 <? sense)%Z then (S j < length psi)%nat -> left_isometry (site chi j)
       else (0 < j)%nat -> right_isometry (site chi j)) /\
    (exact flag truncate -> forall is, in_range (odims O) is ->
       amp chi is = sumcfg (pdims psi) (fun js => opelem O is js * amp psi js)).
Proof.
  intros (HOne & HO) (Hpne & Hp) Hd Hn.
  assert (Hlen : length O = length psi) by (rewrite <- (length_idims O), Hd; apply length_pdims).
  unfold apply_canonical. rewrite Hlen, Nat.eqb_refl.
  assert (Hval : forall is, sumcfg (pdims psi) (fun js => opelem O is js * amp psi js) = tail_apply O psi is 0 0).
  { intros is. unfold tail_apply. apply sumcfg_ext. intros js _. unfold opelem, amp.
    rewrite (mlinked_left 1 O 1), (linked_left_bond 1 psi 1) by assumption. rewrite !sum_1. reflexivity. }
  assert (Hrest : forall is, rest ones111 1 1 O psi 0 is = tail_apply O psi is 0 0).
  { intros is. unfold rest. rewrite !sum_1, get_ones111. ring. }
  assert (Hlrest : forall is, lrest ones111 1 1 O psi 0 is = tail_apply O psi is 0 0).
  { intros is. unfold lrest. rewrite !sum_1, get_ones111. unfold head_apply, tail_apply. ring. }
  assert (HS : eff flag truncate <> 0%R \/ (exact flag truncate /\ exists is, in_range (odims O) is /\ tail_apply O psi is 0 0 <> 0)).
  { destruct Hn as [Hn|(is & Hi & Hnz)]; [left; exact Hn|].
    destruct (Req_EM_T (eff flag truncate) 0) as [E|E]; [right|left; exact E].
    split; [left; exact E|]. exists is. split; [exact Hi|]. rewrite <- Hval. exact Hnz. }
  destruct (Z.ltb_spec 0 sense) as [Hs|Hs].
  - destruct (rightwards_ok truncate psi O 1 ones111 1 1 Hpne HO Hp Hd ltac:(lia) ltac:(lia) ltac:(lia) eq_refl (wf_mk _ _))
      as (chi & E & Hlk & Hpd & HI & Hch).
    { destruct HS as [HS|(He & is & Hi & Hnz)]; [left; exact HS|right; split; [exact He|]].
      exists 0%nat, is. split; [lia|]. split; [exact Hi|]. rewrite Hrest. exact Hnz. }
    assert (Hcne : chi <> []).
    { intros ->. cbn in Hpd. destruct O; [congruence|discriminate]. }
    exists chi. split; [exact E|]. split; [split; assumption|]. split; [exact Hpd|].
    split; [intros j _ Hj; apply HI; exact Hj|].
    intros He is His. rewrite Hval. unfold amp. rewrite (linked_left_bond 1 chi 1) by assumption. rewrite sum_1.
    rewrite (Hch He) by (try assumption; lia). apply Hrest.
  - destruct (leftwards_ok truncate (rev psi) (rev O) 1 ones111 1 1) as (rchi & E & Hlk & Hpd & HI & Hch);
      rewrite ?rev_involutive; auto; try lia.
    { intros E. apply Hpne. rewrite <- (rev_involutive psi), E. reflexivity. }
    { apply wf_mk. }
    { destruct HS as [HS|(He & is & Hi & Hnz)]; [left; exact HS|right; split; [exact He|]].
      exists 0%nat, is. split; [lia|]. split; [exact Hi|]. rewrite Hlrest. exact Hnz. }
    rewrite ?rev_involutive in *.
    rewrite E. cbn [bind].
    assert (Hcne : rev rchi <> []).
    { intros E0. rewrite E0 in Hpd. cbn in Hpd. destruct O; [congruence|discriminate]. }
    exists (rev rchi). split; [reflexivity|]. split; [split; assumption|]. split; [exact Hpd|].
    assert (Hlr : length rchi = length psi).
    { rewrite <- rev_length, <- (length_pdims (rev rchi)), Hpd, length_odims. exact Hlen. }
    split.
    { intros j Hj Hj0. unfold site. rewrite rev_nth by lia. apply HI. rewrite rev_length. lia. }
    intros He is His. rewrite Hval. unfold amp. rewrite (linked_left_bond 1 (rev rchi) 1) by assumption. rewrite sum_1.
    rewrite (Hch He) by (try assumption; lia). apply Hlrest.
Qed.

End Facts.
