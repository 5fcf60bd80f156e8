(** * Facts about the conversion of real states to complex ones *)
From Coq Require Import Reals ZArith List Arith Bool Lia Lra.
From Verif Require Import Scalar RealInst Tensor Spec MpsModel HamSpec HamModel MixModel
  ScalarFacts TensorFacts MpsFacts.
Import ListNotations.

Lemma cnum_sum n f : cnum (@sum RScalar n f) = @sum CScalar n (fun i => cnum (f i)).
Proof.
  induction n as [|n IH]; [reflexivity|]. cbn [sum].
  transitivity (Cadd (cnum (@sum RScalar n f)) (cnum (f n))).
  - apply C_ext; cbn; ring.
  - rewrite IH. reflexivity.
Qed.

Lemma cnum_sumcfg ds : forall f, cnum (@sumcfg RScalar ds f) = @sumcfg CScalar ds (fun is => cnum (f is)).
Proof.
  induction ds as [|d ds IH]; intros f; [reflexivity|]. cbn [sumcfg]. rewrite cnum_sum.
  apply (@sum_ext CScalar). intros i _. apply IH.
Qed.

Lemma cnum_mul x y : cnum (x * y) = Cmul (cnum x) (cnum y).
Proof. apply C_ext; cbn; ring. Qed.

Lemma cnum_delta i j : cnum (@delta RScalar i j) = @delta CScalar i j.
Proof. unfold delta. destruct (Nat.eqb i j); reflexivity. Qed.

Lemma get_cten t is : get (cten t) is = cnum (get t is).
Proof. unfold get, cten. cbn [dims data]. apply (map_nth cnum (data t) 0%R). Qed.

Lemma wf_cten t : wf t -> wf (cten t).
Proof. unfold wf, cten. cbn. rewrite map_length. auto. Qed.

Lemma dims_cten t : dims (cten t) = dims t.
Proof. reflexivity. Qed.

Lemma dim_cten t k : dim (cten t) k = dim t k.
Proof. reflexivity. Qed.

Lemma site_cten psi k : site (cmps_of_rmps psi) k = cten (site psi k).
Proof. unfold site, cmps_of_rmps. apply (map_nth cten psi (@empty RScalar)). Qed.

Lemma length_cten psi : length (cmps_of_rmps psi) = length psi.
Proof. apply map_length. Qed.

Lemma linked_cten psi : forall l r, linked l psi r -> linked l (cmps_of_rmps psi) r.
Proof.
  induction psi as [|A psi IH]; intros l r H; [exact H|].
  destruct H as (d & c & Hd & Hw & H1 & H2 & H3). exists d, c.
  repeat (split; [first [exact Hd|exact (wf_cten A Hw)|assumption]|]). exact (IH c r H3).
Qed.

Lemma wf_mps_cten psi : wf_mps psi -> wf_mps (cmps_of_rmps psi).
Proof.
  intros [Hne (D & HD & HL)]. split.
  - destruct psi; [congruence|discriminate].
  - exists D. split; [exact HD|]. exact (linked_cten psi D D HL).
Qed.

Lemma pdims_cten psi : pdims (cmps_of_rmps psi) = pdims psi.
Proof. unfold pdims, cmps_of_rmps. rewrite map_map. reflexivity. Qed.

Lemma chain_cten psi : forall is a b, chain (cmps_of_rmps psi) is a b = cnum (chain psi is a b).
Proof.
  induction psi as [|A psi IH]; intros [|i is] a b; cbn [chain cmps_of_rmps map].
  - symmetry. apply cnum_delta.
  - reflexivity.
  - reflexivity.
  - rewrite cnum_sum. apply (@sum_ext CScalar). intros c _. rewrite get_cten. fold (cmps_of_rmps psi).
    rewrite IH. symmetry. apply cnum_mul.
Qed.

Lemma amp_cten psi is : amp (cmps_of_rmps psi) is = cnum (amp psi is).
Proof.
  unfold amp. destruct psi as [|A psi]; [reflexivity|]. rewrite cnum_sum. apply (@sum_ext CScalar).
  intros a _. apply chain_cten.
Qed.

Lemma normal_index_cten psi k : @normal_index CScalar (cmps_of_rmps psi) k = @normal_index RScalar psi k.
Proof. unfold normal_index. rewrite length_cten. reflexivity. Qed.

Lemma fold_left_ext_fun {A B} (f g : A -> B -> A) (l : list B) : (forall a b, f a b = g a b) ->
  forall a, fold_left f l a = fold_left g l a.
Proof. intros H. induction l as [|b l IH]; intros a; [reflexivity|]. cbn. rewrite H. apply IH. Qed.

Lemma expected1_dz_cten psi O k : expected1_dz psi O k = @expected1 CScalar (cmps_of_rmps psi) O k.
Proof.
  unfold expected1_dz, expected1. rewrite normal_index_cten. destruct (normal_index psi k) as [n|]; [|reflexivity].
  cbn [bind]. rewrite length_cten. f_equal. apply fold_left_ext_fun. intros M j. rewrite !site_cten. reflexivity.
Qed.

Lemma expected_total_dz_cten psi O : expected_total_dz psi O = @expected_total CScalar (cmps_of_rmps psi) O.
Proof.
  unfold expected_total_dz, expected_total. rewrite length_cten. apply fold_left_ext_fun. intros out i.
  destruct out as [s|]; [|reflexivity]. cbn [bind]. rewrite expected1_dz_cten. reflexivity.
Qed.

Lemma expected2_dz_cten psi O1 k1 O2 k2 :
  expected2_dz psi O1 k1 O2 k2 = @expected2 CScalar (cmps_of_rmps psi) O1 k1 O2 k2.
Proof.
  unfold expected2_dz, expected2. destruct (k1 =? k2)%Z; [apply expected1_dz_cten|].
  rewrite !normal_index_cten. destruct (normal_index psi k1) as [n1|]; [|reflexivity]. cbn [bind].
  destruct (normal_index psi k2) as [n2|]; [|reflexivity].
  cbn [bind]. rewrite length_cten. f_equal. apply fold_left_ext_fun. intros M j. rewrite !site_cten. reflexivity.
Qed.

Lemma h_expected_site_dz_cten psi H k k2 E :
  h_expected_site_dz psi H k k2 E = @h_expected_site CScalar (cmps_of_rmps psi) H k k2 E.
Proof.
  unfold h_expected_site_dz, h_expected_site. apply fold_left_ext_fun. intros out i.
  destruct out as [s|]; [|reflexivity]. cbn [bind]. rewrite expected2_dz_cten. reflexivity.
Qed.

Lemma h_expected_step_dz_cten psi H k E :
  h_expected_step_dz psi H k E = @h_expected_step CScalar (cmps_of_rmps psi) H k E.
Proof.
  unfold h_expected_step_dz, h_expected_step. cbv zeta. rewrite expected1_dz_cten.
  match goal with |- bind ?a _ = bind ?b _ => change b with a; destruct a as [E'|]; [|reflexivity] end.
  cbn [bind]. rewrite !h_expected_site_dz_cten. reflexivity.
Qed.

Lemma h_expected_dz_cten psi H :
  h_expected_dz psi H = bind (@h_expected CScalar (cmps_of_rmps psi) H) (fun E => Ok (Cre E)).
Proof.
  unfold h_expected_dz, h_expected.
  apply (f_equal (fun r : result Cx => bind r (fun E => Ok (Cre E)))). apply fold_left_ext_fun. intros out i.
  destruct out as [s|]; [|reflexivity]. cbn [bind]. apply h_expected_step_dz_cten.
Qed.

(** Matrix elements *)
Lemma melem_ext_fun {SC : Scalar} ds (f f' g g' : list nat -> K) M M' : (forall is, f is = f' is) ->
  (forall is, g is = g' is) -> (forall is js, M is js = M' is js) -> melem ds f M g = melem ds f' M' g'.
Proof.
  intros H1 H2 H3. unfold melem. apply sumcfg_ext. intros is _. apply sumcfg_ext. intros js _.
  rewrite H1, H2, H3. reflexivity.
Qed.

Lemma Cre_sum n f : Cre (@sum CScalar n f) = @sum RScalar n (fun i => Cre (f i)).
Proof. induction n as [|n IH]; [reflexivity|]. cbn [sum]. rewrite <- IH. reflexivity. Qed.
Lemma Cim_sum n f : Cim (@sum CScalar n f) = @sum RScalar n (fun i => Cim (f i)).
Proof. induction n as [|n IH]; [reflexivity|]. cbn [sum]. rewrite <- IH. reflexivity. Qed.
Lemma Cre_sumcfg ds : forall f, Cre (@sumcfg CScalar ds f) = @sumcfg RScalar ds (fun i => Cre (f i)).
Proof.
  induction ds as [|d ds IH]; intros f; [reflexivity|]. cbn [sumcfg]. rewrite Cre_sum.
  apply (@sum_ext RScalar). intros i _. apply IH.
Qed.
Lemma Cim_sumcfg ds : forall f, Cim (@sumcfg CScalar ds f) = @sumcfg RScalar ds (fun i => Cim (f i)).
Proof.
  induction ds as [|d ds IH]; intros f; [reflexivity|]. cbn [sumcfg]. rewrite Cim_sum.
  apply (@sum_ext RScalar). intros i _. apply IH.
Qed.

(** Real vectors see the real and the imaginary part of a matrix separately. *)
Lemma melem_parts ds (f g : list nat -> R) (M : list nat -> list nat -> Cx) :
  @melem CScalar ds (fun is => cnum (f is)) M (fun is => cnum (g is)) =
  mkC (@melem RScalar ds f (fun is js => Cre (M is js)) g) (@melem RScalar ds f (fun is js => Cim (M is js)) g).
Proof.
  unfold melem. apply C_ext; cbn [Cre Cim].
  - rewrite Cre_sumcfg. apply (@sumcfg_ext RScalar). intros is _. rewrite Cre_sumcfg.
    apply (@sumcfg_ext RScalar). intros js _. cbn. ring.
  - rewrite Cim_sumcfg. apply (@sumcfg_ext RScalar). intros is _. rewrite Cim_sumcfg.
    apply (@sumcfg_ext RScalar). intros js _. cbn. ring.
Qed.

(** An antisymmetric matrix has no expectation value in a real state. *)
Lemma melem_antisym ds (f : list nat -> R) (A : list nat -> list nat -> R) :
  (forall is js, in_range ds is -> in_range ds js -> A js is = (- A is js)%R) -> @melem RScalar ds f A f = 0%R.
Proof.
  intros H. assert (E : @melem RScalar ds f A f = (- @melem RScalar ds f A f)%R).
  { unfold melem at 1. rewrite (@sumcfg_swap RScalar). unfold melem.
    transitivity (@kmul RScalar (-1)%R (@sumcfg RScalar ds (fun is => @sumcfg RScalar ds (fun js =>
      @kmul RScalar (@kmul RScalar (@kconj RScalar (f is)) (A is js)) (f js))))); [|cbn; ring].
    rewrite (@sumcfg_mul_l RScalar). apply (@sumcfg_ext RScalar). intros js Hj.
    rewrite (@sumcfg_mul_l RScalar). apply (@sumcfg_ext RScalar). intros is Hi. cbn. rewrite (H js is Hj Hi). ring. }
  lra.
Qed.

Lemma nth_repeat_map {A B} (z : B) (l : list A) n : nth n (map (fun _ => z) l) z = z.
Proof. revert n. induction l as [|a l IH]; intros [|n]; cbn; auto. Qed.
