(** * The local problem of minimize() with a constraint and a state to be orthogonal to (two-site algorithm) *)
From Coq Require Import Reals Lra Bool List Arith ZArith Lia Ring.
From Verif Require Import Scalar ScalarFacts RScal Tensor TensorFacts Spec MpsModel MpsFacts StateFacts StateFacts2 MpoSpec MpoFacts CanonSpec CanonModel
  TruncFacts SplitFacts CanonFacts CanonSweep CanonNorm CanonProps CanonTwo SweepFacts FormModel FormSpec LFormFacts QFormFacts QFormInv QFormValue QFormMain
  SimplifySpec SimplifyModel SimplifyFacts SimplifyStep SimplifyPair SimplifyDouble MinimizerModel MinLive MinimizeSpec MinLocal MinStep MinSweep MinLoop MinOrtho MinConstrained.
Import ListNotations.
Local Open Scope K_scope.

Section Acts.
Context {RS : RScal}.
Add Ring Kring : k_ring.

Lemma scprod_reshape o t d : tensor_scprod o (reshape t d) = tensor_scprod o t.
Proof. reflexivity. Qed.
Lemma ortho_reshape os : forall t d, orthogonalize (reshape t d) os = reshape (orthogonalize t os) d.
Proof. induction os as [|o os IH]; intros t d; [reflexivity|]. exact (IH (tsub t (tscale (tensor_scprod o t) o)) d). Qed.
Lemma ortho_dims os : forall t, dims (orthogonalize t os) = dims t.
Proof. induction os as [|o os IH]; intros t; [reflexivity|]. exact (IH (tsub t (tscale (tensor_scprod o t) o))). Qed.

Lemma orthos_len os n : (forall o, In o os -> length (data o) = n) -> forall t, length (data t) = n -> length (data (orthogonalize t os)) = n.
Proof.
  induction os as [|o os IH]; intros Ho t Ht; [exact Ht|]. cbn [orthogonalize fold_left]. apply IH; [intros o' Hi; apply Ho; right; exact Hi|].
  unfold tsub, tscale. cbn [data]. rewrite map_length, combine_length, map_length, (Ho o (or_introl eq_refl)), Ht. lia.
Qed.

(** The function given to the eigenvalue solver is the product with P M P. *)
Lemma proj_acts2 sense d f o M : length (data o) = nprod d -> acts_as (apply_qform2 sense d f []) (nprod d) M ->
  acts_as (apply_qform2 sense d f [o]) (nprod d) (PMP (nprod d) (vec o) M).
Proof.
  intros Ho HA v Hw Hd. set (n := nprod d) in *. destruct (checked_reshape_ok v d Hw Hd) as (E1 & E2).
  unfold apply_qform2. rewrite E1. cbn [bind]. rewrite E2. set (x := fun i => get v [i]).
  assert (Hlv : length (data v) = n) by (unfold wf in Hw; rewrite Hd in Hw; cbn in Hw; lia).
  set (v' := ten [n] (pr n (vec o) x)).
  assert (Eo : orthogonalize (ten d x) [o] = ten d (pr n (vec o) x)).
  { destruct (ortho_data (ten d x) o n ltac:(cbn [data ten]; rewrite map_length, seq_length; reflexivity) Ho) as (D1 & D2).
    destruct (orthogonalize (ten d x) [o]) as [dd ll]. cbn [data dims] in *. subst dd ll. unfold ten. cbn [dims]. fold n. f_equal.
    apply map_ext_in. intros r Hr. apply in_seq in Hr. apply pr_ext; [|lia]. intros s Hs. apply nth_ten. exact Hs. }
  rewrite Eo.
  destruct (HA v' (wf_ten _ _) eq_refl) as (w & Ew & Hww & Hdw & Hv). unfold apply_qform2 in Ew.
  destruct (checked_reshape_ok v' d (wf_ten _ _) eq_refl) as (E3 & E4). rewrite E3 in Ew. cbn [bind] in Ew. rewrite E4 in Ew.
  assert (E5 : ten d (fun i => get v' [i]) = ten d (pr n (vec o) x)).
  { unfold ten. fold n. f_equal. apply map_ext_in. intros r Hr. apply in_seq in Hr. rewrite (nth_data_eq v' n r eq_refl). apply (nth_ten [n]). cbn. lia. }
  rewrite E5 in Ew. change (orthogonalize (ten d (pr n (vec o) x)) []) with (ten d (pr n (vec o) x)) in Ew.
  destruct (apply_two_site_matrix f (ten d (pr n (vec o) x)) sense) as [v0|]; [|discriminate Ew]. cbn [bind] in *.
  apply Ok_inj' in Ew. change (orthogonalize ?t []) with t in Ew.
  assert (Hl0 : length (data v0) = n) by (apply (f_equal dims) in Ew; rewrite Hdw in Ew; cbn in Ew; congruence).
  assert (Hd0 : data w = data v0) by (rewrite <- Ew; reflexivity).
  rewrite ortho_reshape. destruct (ortho_data v0 o n Hl0 Ho) as (D1 & D2).
  exists (mkT [n] (map (pr n (vec o) (vec v0)) (seq 0 n))).
  split; [unfold reshape; rewrite D1, Hl0; reflexivity|].
  split; [unfold wf; cbn [data dims]; rewrite map_length, seq_length; cbn; lia|]. split; [reflexivity|]. intros i Hi.
  rewrite (nth_data_eq (mkT [n] (map (pr n (vec o) (vec v0)) (seq 0 n))) n i eq_refl). unfold vec at 1. cbn [data]. rewrite (nth_map_seq (pr n (vec o) (vec v0))) by exact Hi.
  rewrite pr_mat by exact Hi.
  rewrite (sum_ext n _ (fun s => sum n (fun t => sum n (fun c => Pm (vec o) i s * M s t * Pm (vec o) t c * x c)))).
  - unfold PMP. rewrite (sum_ext n (fun j => sum n _ * get v [j]) (fun j => sum n (fun s => sum n (fun t => Pm (vec o) i s * M s t * Pm (vec o) t j * x j)))).
    + rewrite (sum_swap n n (fun j s => sum n (fun t => Pm (vec o) i s * M s t * Pm (vec o) t j * x j))). apply sum_ext. intros s Hs. apply sum_swap.
    + intros j Hj. rewrite sum_mul_r. apply sum_ext. intros s Hs. rewrite sum_mul_r. reflexivity.
  - intros s Hs. replace (vec v0 s) with (get w [s]) by (rewrite (nth_data_eq w n s Hdw); unfold vec; rewrite Hd0; reflexivity).
    rewrite Hv by exact Hs. rewrite sum_mul_l. apply sum_ext. intros t Ht.
    rewrite (nth_data_eq v' n t eq_refl). unfold vec at 2, v'. rewrite nth_ten by (cbn; lia). rewrite pr_mat by exact Ht.
    rewrite !sum_mul_l. apply sum_ext. intros c Hc. ring.
Qed.

(** The problem restricted to the positions [sub] *)
Lemma sub_acts_os d sense f M sub os : NoDup sub -> (forall s, In s sub -> (s < nprod d)%nat) -> (forall o, In o os -> length (data o) = nprod d) ->
  acts_as (apply_qform2 sense d f os) (nprod d) M ->
  acts_as (apply_qform2_with_subspace sense d f sub os) (length sub) (fun i j => M (nth i sub 0%nat) (nth j sub 0%nat)).
Proof.
  intros Hn Hs Hos HA v Hw Hd. set (n := nprod d) in *. set (x := fun t => nth t (data v) 0).
  assert (Hlv : length (data v) = length sub) by (unfold wf in Hw; rewrite Hd in Hw; cbn in Hw; lia).
  unfold apply_qform2_with_subspace. rewrite scatter_spread by assumption. fold x.
  destruct (HA (ten [n] (spread sub x)) (wf_ten _ _) eq_refl) as (w & Ew & Hww & Hdw & Hval).
  unfold apply_qform2 in Ew. destruct (checked_reshape_ok (ten [n] (spread sub x)) d (wf_ten _ _) eq_refl) as (E1 & E2). rewrite E1 in Ew. cbn [bind] in Ew.
  assert (E3 : reshape (ten [n] (spread sub x)) d = ten d (spread sub x)).
  { unfold reshape, ten. cbn [data nprod fold_right]. rewrite Nat.mul_1_r. reflexivity. }
  rewrite E3 in Ew.
  destruct (apply_two_site_matrix f (orthogonalize (ten d (spread sub x)) os) sense) as [w0|] eqn:E0; [|discriminate Ew]. cbn [bind] in Ew |- *. apply Ok_inj' in Ew.
  rewrite ortho_reshape in Ew.
  assert (Hl0 : length (data w0) = n).
  { apply (f_equal dims) in Ew. rewrite Hdw in Ew. cbn in Ew. congruence. }
  set (w1 := orthogonalize w0 os) in *.
  assert (Hl1 : length (data w1) = n) by (apply orthos_len; assumption).
  assert (Hv0 : forall r, (r < n)%nat -> nth r (data w1) 0 = sum n (fun c => M r c * spread sub x c)).
  { intros r Hr. specialize (Hval r Hr). rewrite <- Ew in Hval. change (get (reshape w1 [length (data w0)]) [r]) with (nth (r + length (data w0) * 0) (data w1) 0) in Hval.
    rewrite Nat.mul_0_r, Nat.add_0_r in Hval. rewrite Hval. apply sum_ext. intros c Hc. f_equal. rewrite get_ten by (apply in_range_1; exact Hc). f_equal. cbn. lia. }
  rewrite gather_ok by (intros s Hi; rewrite Hl1; apply Hs; exact Hi).
  eexists. split; [reflexivity|]. split; [unfold wf; cbn [data dims nprod fold_right]; rewrite map_length; lia|]. split; [reflexivity|].
  intros i Hi. unfold get at 1. cbn [dims data offset]. rewrite Nat.mul_0_r, Nat.add_0_r.
  rewrite (nth_indep _ 0 ((fun i => nth i (data w1) 0) 0%nat)) by (rewrite map_length; exact Hi). rewrite (map_nth (fun i => nth i (data w1) 0)).
  rewrite Hv0 by (apply Hs, nth_In; exact Hi).
  rewrite (sum_ext n _ (fun c => spread sub x c * M (nth i sub 0%nat) c)) by (intros; ring). rewrite spread_sum by exact Hs.
  apply sum_ext. intros t Ht. assert (E : get v [t] = x t) by (unfold x, get; rewrite Hd; cbn [offset]; f_equal; lia). rewrite E. ring.
Qed.

(** If o vanishes outside [sub], projecting and restricting commute. *)
Lemma Pm_out n sub o i (G : nat -> K) : NoDup sub -> (forall s, In s sub -> (s < n)%nat) -> (forall r, (r < n)%nat -> o r <> 0 -> In r sub) -> (i < length sub)%nat ->
  sum n (fun s => Pm o (nth i sub 0%nat) s * G s) = sum (length sub) (fun u => Pm (fun t => o (nth t sub 0%nat)) i u * G (nth u sub 0%nat)).
Proof.
  intros Hn Hs Ho Hi. set (r := nth i sub 0%nat). assert (Hr : (r < n)%nat) by (apply Hs, nth_In; exact Hi).
  unfold Pm. rewrite (sum_ext n _ (fun s => delta r s * G s - (o r * (kconj (o s) * G s)))) by (intros; ring).
  rewrite (sum_ext (length sub) _ (fun u => delta i u * G (nth u sub 0%nat) - (o r * (kconj (o (nth u sub 0%nat)) * G (nth u sub 0%nat))))) by (intros; unfold r; ring).
  rewrite !sum_sub, !sum_delta_l' by assumption. f_equal. rewrite <- !sum_mul_l. f_equal.
  rewrite (sum_ext n _ (fun s => spread sub (fun t => kconj (o (nth t sub 0%nat))) s * G s)).
  - apply (spread_sum n sub (fun t => kconj (o (nth t sub 0%nat))) G Hs).
  - intros s Hsn. rewrite <- spread_conj. rewrite (spread_gather n sub o Hn Ho s Hsn). reflexivity.
Qed.

Lemma PMP_sub n sub o M i j : NoDup sub -> (forall s, In s sub -> (s < n)%nat) -> (forall r, (r < n)%nat -> o r <> 0 -> In r sub) ->
  (i < length sub)%nat -> (j < length sub)%nat ->
  PMP n o M (nth i sub 0%nat) (nth j sub 0%nat) =
  PMP (length sub) (fun t => o (nth t sub 0%nat)) (fun a c => M (nth a sub 0%nat) (nth c sub 0%nat)) i j.
Proof.
  intros Hn Hs Ho Hi Hj. unfold PMP.
  rewrite (sum_ext n _ (fun s => Pm o (nth i sub 0%nat) s * sum n (fun t => M s t * Pm o t (nth j sub 0%nat)))) by (intros; rewrite sum_mul_l; apply sum_ext; intros; ring).
  rewrite (Pm_out n sub o i (fun s => sum n (fun t => M s t * Pm o t (nth j sub 0%nat)))) by assumption. apply sum_ext. intros u Hu.
  rewrite (sum_ext n _ (fun t => kconj (Pm o (nth j sub 0%nat) t * kconj (M (nth u sub 0%nat) t)))) by (intros; rewrite kconj_mul, Pm_conj, kconj_inv; ring).
  rewrite <- sum_conj. rewrite (Pm_out n sub o j (fun t => kconj (M (nth u sub 0%nat) t))) by assumption.
  rewrite sum_conj, sum_mul_l. apply sum_ext. intros t Ht. rewrite kconj_mul, Pm_conj, kconj_inv. ring.
Qed.
End Acts.

(** ** The vector of a state at a pair of sites *)
Section Vector.
Context {RS : RScal}.
Add Ring Kring2 : k_ring.

Lemma pair_vector (phi : mps) (ds : list nat) d k k' P f a i m j c : open_mps phi /\ pdims phi = ds -> At [1] [phi] ds k P f -> moved d (length P) k k' ->
  let kk := Nat.min k k' in dims (site P kk) = [a; i; m] -> dims (site P (S kk)) = [m; j; c] ->
  exists v, two_site_vector f (sgn d) = Ok v /\ wf v /\ dims v = [a; i; j; c] /\
    forall x, inner ds (amp phi) (amp (emb2 kk P x)) = sum (nprod [a; i; j; c]) (fun r => vec v r * x r).
Proof.
  intros Hphi HA Hm kk D1 D2.
  assert (Hg : good_bras [1] [phi] ds) by (split; [discriminate|]; split; [reflexivity|]; intros c0 [<-|[]]; exact Hphi).
  pose proof HA as (Ho & Hpd & Hk & Hh).
  destruct (at_repr2 [1] [phi] ds Hg d k k' P f HA Hm) as (v & a' & i' & m' & j' & c' & Ev & Hwv & Hdv & D1' & D2' & _ & _ & Pa & Pi & Pm0 & Pj & Pc & HV).
  fold kk in D1', D2', HV. rewrite D1 in D1'. injection D1' as <- <- <-. rewrite D2 in D2'. injection D2' as <- <-.
  exists v. split; [exact Ev|]. split; [exact Hwv|]. split; [exact Hdv|]. intros x.
  assert (Hkk : (S kk < length P)%nat) by (unfold kk; destruct d; cbn in Hm; lia).
  pose proof (proj2 (emb2_open ds kk P a i m j c Ho Hpd Hkk D1 D2 ltac:(auto) x)) as Hpx.
  transitivity (overlap [1] [phi] (emb2 kk P x)).
  { unfold overlap. cbn [length sum nth]. rewrite Hpx, kconj_1. ring. }
  rewrite (emb2_eq kk P a i m j c D1 D2). rewrite <- (HV (id3 a i) (ten [a * i; j; c]%nat x) (a * i)%nat) by (first [nia|apply wf_mk|apply wf_ten|reflexivity]).
  rewrite (sum_offset [a; i; j; c] (fun r => vec v r * x r)). cbn [sumcfg]. unfold sum4.
  apply sum_ext. intros u Hu. apply sum_ext. intros y Hy. apply sum_ext. intros z Hz. apply sum_ext. intros w Hw0.
  rewrite join_id3 by assumption. f_equal. unfold get, vec. rewrite Hdv. reflexivity.
Qed.
End Vector.
