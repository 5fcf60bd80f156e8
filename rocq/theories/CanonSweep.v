(** Sweeps of set_canonical: canonical_form and normal_form *)
From Coq Require Import Reals Lra Bool List Arith ZArith Lia Ring.
From Verif Require Import Scalar ScalarFacts RScal Tensor TensorFacts Spec MpsModel MpsFacts EnvFacts ExpectedFacts
  StateFacts StateFacts2 CanonSpec CanonModel TruncFacts SplitFacts CanonFacts.
Import ListNotations.
Local Open Scope K_scope.

Section Facts.
Context {RS : RScal}.
Add Ring Kring : k_ring.

Lemma Ok_inj' {A} (x y : A) : Ok x = Ok y -> x = y.
Proof. congruence. Qed.

(** [psi'] has the same physical dimensions and matrix products as [psi]. *)
Definition same_chain (D : nat) (psi psi' : mps) : Prop :=
  forall is a b, in_range (pdims psi) is -> (a < D)%nat -> chain psi' is a b = chain psi is a b.

Definition nonzero_chain (D : nat) (psi : mps) : Prop :=
  exists is a b, in_range (pdims psi) is /\ (a < D)%nat /\ chain psi is a b <> 0.

Lemma nonzero_amp D psi is : left_bond psi = D -> in_range (pdims psi) is -> amp psi is <> 0 -> nonzero_chain D psi.
Proof.
  intros HD His Hne. unfold amp in Hne. rewrite HD in Hne.
  assert (H : exists a, (a < D)%nat /\ chain psi is a a <> 0).
  { clear HD. induction D as [|D IH]; cbn in Hne; [congruence|].
    destruct (keqb_spec (chain psi is D D) 0) as [E|E].
    - rewrite E in Hne. destruct IH as (a & Ha & H); [intros E2; apply Hne; rewrite E2; ring|].
      exists a. split; [lia|exact H].
    - exists D. split; [lia|exact E]. }
  destruct H as (a & Ha & H). exists is, a, a. auto.
Qed.

Lemma nonzero_same D psi psi' : pdims psi' = pdims psi -> same_chain D psi psi' ->
  nonzero_chain D psi -> nonzero_chain D psi'.
Proof.
  intros Hp Hs (is & a & b & H1 & H2 & H3). exists is, a, b. rewrite Hp. split; [exact H1|]. split; [exact H2|].
  rewrite Hs by assumption. exact H3.
Qed.

Lemma same_trans D psi1 psi2 psi3 : pdims psi2 = pdims psi1 -> same_chain D psi1 psi2 ->
  same_chain D psi2 psi3 -> same_chain D psi1 psi3.
Proof.
  intros Hp H1 H2 is a b Hi Ha. rewrite H2, H1 by (try rewrite Hp; assumption). reflexivity.
Qed.

Lemma skipn_1 {A} k (l : list A) : skipn 1 (skipn k l) = skipn (S k) l.
Proof. revert k. induction l as [|x l IH]; intros [|k]; try reflexivity. apply (IH k). Qed.

Lemma split2 (psi : mps) k : (S k < length psi)%nat ->
  psi = firstn k psi ++ site psi k :: site psi (S k) :: skipn (S (S k)) psi.
Proof.
  intros H. rewrite (list_split_nth k psi empty) at 1 by lia. f_equal. f_equal.
  rewrite (list_split_nth 0 (skipn (S k) psi) empty) at 1 by (rewrite skipn_length; lia).
  rewrite nth_skipn_add. cbn [firstn app]. rewrite Nat.add_0_r. f_equal.
  apply skipn_1.
Qed.

Lemma nonzero_tensor D p t q m d c D' : linked D p m -> dims t = [m; d; c] -> wf t -> (0 < d)%nat -> (0 < c)%nat ->
  linked c q D' -> nonzero_chain D (p ++ t :: q) -> nonzero3 t.
Proof.
  intros Hp Ht Hwt Hd Hc Hq (is & a & b & H1 & H2 & H3).
  destruct (is_zero_tensor t) eqn:E.
  - exfalso. apply H3. apply (chain_zero_tensor p q t D m d c D'); auto.
    intros x i y Hx Hi Hy. apply (proj1 (is_zero_tensor_spec t Hwt)); [exact E|].
    rewrite Ht. apply in_range_3; assumption.
  - assert (exists k, (k < length (data t))%nat /\ nth k (data t) 0 <> 0) as (k & Hk & Hne).
    { unfold is_zero_tensor in E. revert E. induction (data t) as [|x l IH]; cbn; [discriminate|].
      destruct (keqb_spec x 0) as [->|Hx].
      - cbn. intros E. destruct (IH E) as (k & Hk & Hn). exists (S k). split; [cbn; lia|exact Hn].
      - intros _. exists 0%nat. split; [cbn; lia|exact Hx]. }
    assert (Hw := Hwt). unfold wf in Hw. rewrite Hw in Hk.
    pose proof (unravel_in_range _ _ Hk) as Hr. pose proof (offset_unravel _ _ Hk) as Ho.
    rewrite Ht in Hr at 1. 
    apply in_range_cons_inv in Hr. destruct Hr as (x & l1 & E1 & Hx & Hr).
    apply in_range_cons_inv in Hr. destruct Hr as (i & l2 & E2 & Hi & Hr).
    apply in_range_cons_inv in Hr. destruct Hr as (y & l3 & E3 & Hy & Hr).
    apply in_range_nil_inv in Hr. subst l1 l2 l3.
    exists x, i, y. unfold dim. rewrite Ht. cbn [nth]. repeat split; auto.
    unfold get. rewrite <- E1, Ho. exact Hne.
Qed.

Variable svd : tensor -> tensor * list R * tensor.
Variable flag : R.
Hypothesis Hsvd : svd_contract svd.

(** Result of changing sites k, k+1 of psi. *)
Definition step_ok (D D' : nat) (psi psi' : mps) (k : nat) (truncate : bool) : Prop :=
  linked D psi' D' /\ pdims psi' = pdims psi /\
  (forall j, j <> k -> j <> S k -> site psi' j = site psi j) /\
  (forall j, (dim (site psi' j) 0 <= dim (site psi j) 0)%nat) /\
  (exact flag truncate -> same_chain D psi psi').

Lemma site_mid p (x y : tensor) q j : 
  site (p ++ x :: y :: q) j =
    if Nat.eqb j (length p) then x else if Nat.eqb j (S (length p)) then y
    else if Nat.ltb j (length p) then nth j p empty else nth (j - length p - 2) q empty.
Proof.
  unfold site. destruct (Nat.eqb_spec j (length p)) as [->|H1].
  - rewrite app_nth2, Nat.sub_diag by lia. reflexivity.
  - destruct (Nat.eqb_spec j (S (length p))) as [->|H2].
    + rewrite app_nth2 by lia. replace (S (length p) - length p)%nat with 1%nat by lia. reflexivity.
    + destruct (Nat.ltb_spec j (length p)).
      * rewrite app_nth1 by lia. reflexivity.
      * rewrite app_nth2 by lia. replace (j - length p)%nat with (S (S (j - length p - 2))) by lia.
        replace (S (S (j - length p - 2)) - 2)%nat with (j - length p - 2)%nat by lia. reflexivity.
Qed.

Lemma step_ok_intro D D' p q A B A' B' m m' d1 d2 c c' truncate :
  linked D p m -> linked m' q D' ->
  dims A = [m; d1; c] -> wf A -> (0 < d1)%nat -> (0 < c)%nat ->
  dims B = [c; d2; m'] -> wf B -> (0 < d2)%nat -> (0 < m')%nat ->
  dims A' = [m; d1; c'] -> wf A' -> (0 < c' <= c)%nat -> dims B' = [c'; d2; m'] -> wf B' ->
  (exact flag truncate -> forall x i j y, (x < m)%nat -> (i < d1)%nat -> (j < d2)%nat -> (y < m')%nat ->
     joined A' B' x i j y = joined A B x i j y) ->
  step_ok D D' (p ++ A :: B :: q) (p ++ A' :: B' :: q) (length p) truncate.
Proof.
  intros Hp Hq HA HwA Hd1 Hc HB HwB Hd2 Hm' HA' HwA' Hc' HB' HwB' HJ.
  split.
  { apply linked_app. exists m. split; [exact Hp|]. exists d1, c'. repeat split; auto; try lia.
    exists d2, m'. repeat split; auto. }
  split.
  { rewrite !pdims_app. cbn [pdims map]. unfold dim. rewrite HA, HB, HA', HB'. reflexivity. }
  split.
  { intros j H1 H2. rewrite !site_mid.
    destruct (Nat.eqb_spec j (length p)); [contradiction|].
    destruct (Nat.eqb_spec j (S (length p))); [contradiction|]. reflexivity. }
  split.
  { intros j. rewrite !site_mid.
    destruct (Nat.eqb j (length p)); [unfold dim; rewrite HA, HA'; cbn; lia|].
    destruct (Nat.eqb j (S (length p))); [unfold dim; rewrite HB, HB'; cbn; lia|].
    lia. }
  intros He is a b His Ha. apply (chain_pair_eq p q A B A' B' D D' m c c' d1 d2 m'); auto; try lia.
Qed.

(** Decomposition of a chain around sites k, k+1. *)
Lemma linked_split2 D psi D' k : linked D psi D' -> (0 < D)%nat -> (S k < length psi)%nat ->
  exists m d1 c d2 m',
    linked D (firstn k psi) m /\ linked m' (skipn (S (S k)) psi) D' /\ (0 < m)%nat /\
    dims (site psi k) = [m; d1; c] /\ wf (site psi k) /\ (0 < d1)%nat /\ (0 < c)%nat /\
    dims (site psi (S k)) = [c; d2; m'] /\ wf (site psi (S k)) /\ (0 < d2)%nat /\ (0 < m')%nat.
Proof.
  intros HL HD Hk. rewrite (split2 psi k Hk) in HL. apply linked_app in HL. destruct HL as (m & H1 & H2).
  destruct H2 as (d1 & c & H2 & H3 & H4 & H5 & d2 & m' & H6 & H7 & H8 & H9 & H10).
  exists m, d1, c, d2, m'. split; [exact H1|]. split; [exact H10|].
  split; [apply (linked_pos D (firstn k psi) m); assumption|]. repeat split; assumption.
Qed.

Lemma site_at_nat psi k : (k < length psi)%nat -> site_at psi (Z.of_nat k) = Ok (site psi k).
Proof.
  intros H. unfold site_at.
  replace ((0 <=? Z.of_nat k)%Z) with true by (symmetry; apply Z.leb_le; lia).
  replace ((Z.of_nat k <? Z.of_nat (length psi))%Z) with true by (symmetry; apply Z.ltb_lt; lia).
  cbn. rewrite Nat2Z.id. reflexivity.
Qed.

Lemma replace_nth_site psi k : replace_nth k (site psi k) psi = psi.
Proof.
  revert k. induction psi as [|x psi IH]; intros k; [destruct k; reflexivity|].
  destruct k as [|k]; [reflexivity|]. cbn. f_equal. apply IH.
Qed.

(** set_canonical to the right at site k of a state whose site k is (replaced by) t *)
Lemma linked_split1' D psi D' k : linked D psi D' -> (k < length psi)%nat ->
  exists m d c, linked D (firstn k psi) m /\ linked c (skipn (S k) psi) D' /\
    dims (site psi k) = [m; d; c] /\ wf (site psi k) /\ (0 < d)%nat /\ (0 < c)%nat.
Proof.
  intros HL Hk. rewrite (list_split_nth k psi empty Hk) in HL. apply linked_app in HL.
  destruct HL as (m & H1 & d & c & H2 & H3 & H4 & H5 & H6). exists m, d, c. auto 10.
Qed.

Lemma set_canonical_right_ok3 D D' psi k t truncate :
  linked D (replace_nth k t psi) D' -> (0 < D)%nat -> (S k < length psi)%nat ->
  (eff flag truncate <> 0%R \/ nonzero3 t) ->
  exists psi', set_canonical svd flag psi (Z.of_nat k) t 1 truncate = Ok psi' /\
    step_ok D D' (replace_nth k t psi) psi' k truncate /\ left_isometry (site psi' k).
Proof.
  intros HL HD Hk Hn. set (phi := replace_nth k t psi) in *.
  assert (Hlen : length phi = length psi) by apply length_replace_nth.
  assert (Ht : site phi k = t) by (unfold site, phi; apply nth_replace_nth_eq; lia).
  destruct (linked_split2 D phi D' k HL HD) as (m & d1 & c & d2 & m' & H1 & H2 & Hm & H3 & H4 & H5 & H6 & H7 & H8 & H9 & H10);
    [lia|].
  assert (Hlp : length (firstn k phi) = k) by (rewrite firstn_length; lia).
  assert (Hpsi : psi = firstn k phi ++ site psi k :: site phi (S k) :: skipn (S (S k)) phi).
  { rewrite (split2 psi k Hk) at 1.
    assert (E1 : firstn k phi = firstn k psi).
    { unfold phi. clear. revert k. induction psi as [|x l IH]; intros [|k]; cbn; try reflexivity. f_equal. apply IH. }
    assert (E2 : skipn (S (S k)) phi = skipn (S (S k)) psi).
    { unfold phi. clear. revert k. induction psi as [|x l IH]; intros [|k]; cbn; try reflexivity. apply IH. }
    assert (E3 : site phi (S k) = site psi (S k)) by (apply nth_replace_nth_neq; lia).
    rewrite E1, E2, E3. reflexivity. }
  rewrite Ht in H3, H4.
  destruct (set_canonical_right svd flag Hsvd (firstn k phi) (site psi k) t (site phi (S k))
              (skipn (S (S k)) phi) m d1 c d2 m' truncate) as (U & B' & l & E & HU & HwU & Hl & HI & HB' & HwB' & HJ); auto.
  rewrite Hlp in E. rewrite <- Hpsi in E.
  exists (firstn k phi ++ U :: B' :: skipn (S (S k)) phi). split; [exact E|].
  split.
  - pose proof (split2 phi k ltac:(lia)) as E0. rewrite Ht in E0.
    pose proof (step_ok_intro D D' (firstn k phi) (skipn (S (S k)) phi) t (site phi (S k)) U B' m m' d1 d2 c l truncate
      H1 H2 H3 H4 H5 H6 H7 H8 H9 H10 HU HwU Hl HB' HwB' HJ) as HH.
    rewrite <- E0, Hlp in HH. exact HH.
  - rewrite site_mid, Hlp, Nat.eqb_refl. exact HI.
Qed.

Lemma set_canonical_right_ok D D' psi k t truncate :
  linked D (replace_nth k t psi) D' -> (0 < D)%nat -> (S k < length psi)%nat ->
  (eff flag truncate <> 0%R \/ nonzero_chain D (replace_nth k t psi)) ->
  exists psi', set_canonical svd flag psi (Z.of_nat k) t 1 truncate = Ok psi' /\
    step_ok D D' (replace_nth k t psi) psi' k truncate /\ left_isometry (site psi' k).
Proof.
  intros HL HD Hk Hn. apply set_canonical_right_ok3; auto.
  destruct Hn as [Hn|Hn]; [left; exact Hn|right]. set (phi := replace_nth k t psi) in *.
  assert (Hlen : length phi = length psi) by apply length_replace_nth.
  assert (Ht : site phi k = t) by (unfold site, phi; apply nth_replace_nth_eq; lia).
  destruct (linked_split1' D phi D' k HL) as (m & d1 & c & H1 & H2 & H3 & H4 & H5 & H6); [lia|].
  rewrite Ht in H3, H4.
  assert (E : phi = firstn k phi ++ t :: skipn (S k) phi).
  { rewrite <- Ht at 1. apply list_split_nth. lia. }
  rewrite E in Hn.
  apply (nonzero_tensor D (firstn k phi) t (skipn (S k) phi) m d1 c D'); auto.
Qed.

Lemma set_canonical_left_ok3 D D' psi k t truncate :
  linked D (replace_nth (S k) t psi) D' -> (0 < D)%nat -> (S k < length psi)%nat ->
  (eff flag truncate <> 0%R \/ nonzero3 t) ->
  exists psi', set_canonical svd flag psi (Z.of_nat (S k)) t (-1) truncate = Ok psi' /\
    step_ok D D' (replace_nth (S k) t psi) psi' k truncate /\ right_isometry (site psi' (S k)).
Proof.
  intros HL HD Hk Hn. set (phi := replace_nth (S k) t psi) in *.
  assert (Hlen : length phi = length psi) by apply length_replace_nth.
  assert (Ht : site phi (S k) = t) by (unfold site, phi; apply nth_replace_nth_eq; lia).
  destruct (linked_split2 D phi D' k HL HD) as (m & d1 & c & d2 & m' & H1 & H2 & Hm & H3 & H4 & H5 & H6 & H7 & H8 & H9 & H10);
    [lia|].
  assert (Hlp : length (firstn k phi) = k) by (rewrite firstn_length; lia).
  assert (Hpsi : psi = firstn k phi ++ site phi k :: site psi (S k) :: skipn (S (S k)) phi).
  { rewrite (split2 psi k Hk) at 1.
    assert (E1 : firstn k phi = firstn k psi).
    { unfold phi. clear. revert k. induction psi as [|x l IH]; intros [|k]; try reflexivity.
      cbn [replace_nth firstn]. f_equal. apply IH. }
    assert (E2 : skipn (S (S k)) phi = skipn (S (S k)) psi).
    { unfold phi. clear. revert k. induction psi as [|x l IH]; intros [|k]; try reflexivity.
      - destruct l; reflexivity.
      - cbn [replace_nth]. cbn [skipn]. apply (IH k). }
    assert (E3 : site phi k = site psi k) by (apply nth_replace_nth_neq; lia).
    rewrite E1, E2, E3. reflexivity. }
  rewrite Ht in H7, H8.
  destruct (set_canonical_left svd flag Hsvd (firstn k phi) (site psi (S k)) t (site phi k)
              (skipn (S (S k)) phi) m d2 c d1 m' truncate) as (U & B' & l & E & HU & HwU & Hl & HI & HB' & HwB' & HJ); auto.
  rewrite Hlp in E. rewrite <- Hpsi in E. replace (Z.of_nat k + 1)%Z with (Z.of_nat (S k)) in E by lia.
  exists (firstn k phi ++ B' :: U :: skipn (S (S k)) phi). split; [exact E|].
  split.
  - pose proof (split2 phi k ltac:(lia)) as E0. rewrite Ht in E0.
    pose proof (step_ok_intro D D' (firstn k phi) (skipn (S (S k)) phi) (site phi k) t B' U m m' d1 d2 c l truncate
      H1 H2 H3 H4 H5 H6 H7 H8 H9 H10 HB' HwB' Hl HU HwU HJ) as HH.
    rewrite <- E0, Hlp in HH. exact HH.
  - rewrite site_mid, Hlp. replace (Nat.eqb (S k) k) with false by (symmetry; apply Nat.eqb_neq; lia).
    rewrite Nat.eqb_refl. exact HI.
Qed.

Lemma set_canonical_left_ok D D' psi k t truncate :
  linked D (replace_nth (S k) t psi) D' -> (0 < D)%nat -> (S k < length psi)%nat ->
  (eff flag truncate <> 0%R \/ nonzero_chain D (replace_nth (S k) t psi)) ->
  exists psi', set_canonical svd flag psi (Z.of_nat (S k)) t (-1) truncate = Ok psi' /\
    step_ok D D' (replace_nth (S k) t psi) psi' k truncate /\ right_isometry (site psi' (S k)).
Proof.
  intros HL HD Hk Hn. apply set_canonical_left_ok3; auto.
  destruct Hn as [Hn|Hn]; [left; exact Hn|right]. set (phi := replace_nth (S k) t psi) in *.
  assert (Hlen : length phi = length psi) by apply length_replace_nth.
  assert (Ht : site phi (S k) = t) by (unfold site, phi; apply nth_replace_nth_eq; lia).
  destruct (linked_split1' D phi D' (S k) HL) as (m & d1 & c & H1 & H2 & H3 & H4 & H5 & H6); [lia|].
  rewrite Ht in H3, H4.
  assert (E : phi = firstn (S k) phi ++ t :: skipn (S (S k)) phi).
  { rewrite <- Ht at 1. apply list_split_nth. lia. }
  rewrite E in Hn.
  apply (nonzero_tensor D (firstn (S k) phi) t (skipn (S (S k)) phi) m d1 c D'); auto.
Qed.

(** ** Sweeps *)
Definition okflag (D : nat) (psi : mps) : Prop := flag <> 0%R \/ nonzero_chain D psi.

Lemma okflag_step D D' psi psi' k : step_ok D D' psi psi' k true -> okflag D psi -> okflag D psi'.
Proof.
  intros (H1 & H2 & H3 & H4 & H5) [H|H]; [left; exact H|].
  destruct (Req_EM_T flag 0) as [E|E]; [right|left; exact E].
  apply (nonzero_same D psi psi'); auto. apply H5. left. exact E.
Qed.

Definition sweep_ok (D D' : nat) (psi psi' : mps) : Prop :=
  linked D psi' D' /\ pdims psi' = pdims psi /\
  (forall j, (dim (site psi' j) 0 <= dim (site psi j) 0)%nat) /\
  (exact flag true -> same_chain D psi psi') /\ okflag D psi'.

Lemma sweep_refl D D' psi : linked D psi D' -> okflag D psi -> sweep_ok D D' psi psi.
Proof. intros H1 H2. split; [exact H1|]. repeat split; auto. Qed.

Lemma sweep_step D D' psi psi1 psi2 k : sweep_ok D D' psi psi1 -> step_ok D D' psi1 psi2 k true ->
  sweep_ok D D' psi psi2.
Proof.
  intros (H1 & H2 & H3 & H4 & H5) HS. pose proof (okflag_step _ _ _ _ _ HS H5) as H6.
  destruct HS as (S1 & S2 & S3 & S4 & S5). split; [exact S1|]. split; [congruence|].
  split; [intros j; eapply Nat.le_trans; [apply S4|apply H3]|]. split; [|exact H6].
  intros He. eapply same_trans; [exact H2|apply H4; exact He|apply S5; exact He].
Qed.

Lemma same_length (psi psi' : mps) : pdims psi' = pdims psi -> length psi' = length psi.
Proof. intros H. rewrite <- (length_pdims psi), <- (length_pdims psi'), H. reflexivity. Qed.

Lemma right_sweep D D' psi s : linked D psi D' -> (0 < D)%nat -> okflag D psi -> (s < length psi)%nat ->
  exists psi', fold_left (canonicalize_site svd flag 1) (map Z.of_nat (seq 0 s)) (Ok psi) = Ok psi' /\
    sweep_ok D D' psi psi' /\
    (forall j, (j < s)%nat -> left_isometry (site psi' j)) /\
    (forall j, (s < j)%nat -> site psi' j = site psi j).
Proof.
  intros HL HD Hf. induction s as [|s IH]; intros Hs.
  - exists psi. split; [reflexivity|]. split; [apply sweep_refl; assumption|]. split; [intros; lia|reflexivity].
  - destruct IH as (psi1 & E & HS & HI & HR); [lia|].
    pose proof HS as (S1 & S2 & S3 & S4 & S5).
    pose proof (same_length _ _ S2) as Hlen.
    rewrite seq_S, map_app, fold_left_app, E. cbn [map fold_left plus].
    cbn [canonicalize_site bind]. rewrite site_at_nat by lia. cbn [bind].
    destruct (set_canonical_right_ok D D' psi1 s (site psi1 s) true) as (psi2 & E2 & HS2 & HI2).
    + rewrite replace_nth_site. exact S1.
    + exact HD.
    + lia.
    + rewrite replace_nth_site. exact S5.
    + rewrite replace_nth_site in HS2. exists psi2. split; [exact E2|].
      split; [eapply sweep_step; eassumption|].
      destruct HS2 as (_ & _ & HS3 & _).
      split.
      * intros j Hj. destruct (Nat.eq_dec j s) as [->|Hne]; [exact HI2|].
        rewrite HS3 by lia. apply HI. lia.
      * intros j Hj. rewrite HS3 by lia. apply HR. lia.
Qed.

Lemma left_sweep D D' psi n c : length psi = n -> linked D psi D' -> (0 < D)%nat -> okflag D psi -> (c < n)%nat ->
  exists psi', fold_left (canonicalize_site svd flag (-1))
                 (map (fun j => Z.of_nat n - 1 - Z.of_nat j)%Z (seq 0 c)) (Ok psi) = Ok psi' /\
    sweep_ok D D' psi psi' /\
    (forall j, (n - c <= j < n)%nat -> right_isometry (site psi' j)) /\
    (forall j, (j + c + 1 < n)%nat -> site psi' j = site psi j).
Proof.
  intros Hlen HL HD Hf. induction c as [|c IH]; intros Hc.
  - exists psi. split; [reflexivity|]. split; [apply sweep_refl; assumption|]. split; [intros; lia|reflexivity].
  - destruct IH as (psi1 & E & HS & HI & HR); [lia|].
    pose proof HS as (S1 & S2 & S3 & S4 & S5).
    pose proof (same_length _ _ S2) as Hlen1.
    rewrite seq_S, map_app, fold_left_app, E. cbn [map fold_left plus].
    cbn [canonicalize_site bind].
    set (k := (n - 1 - c - 1)%nat).
    replace (Z.of_nat n - 1 - Z.of_nat c)%Z with (Z.of_nat (S k)) by (unfold k; lia).
    rewrite site_at_nat by (unfold k; lia). cbn [bind].
    destruct (set_canonical_left_ok D D' psi1 k (site psi1 (S k)) true) as (psi2 & E2 & HS2 & HI2).
    + rewrite replace_nth_site. exact S1.
    + exact HD.
    + unfold k; lia.
    + rewrite replace_nth_site. exact S5.
    + rewrite replace_nth_site in HS2. exists psi2. split; [exact E2|].
      split; [eapply sweep_step; eassumption|].
      destruct HS2 as (_ & _ & HS3 & _).
      split.
      * intros j Hj. destruct (Nat.eq_dec j (S k)) as [->|Hne]; [exact HI2|].
        rewrite HS3 by (unfold k in *; lia). apply HI. unfold k in *; lia.
      * intros j Hj. rewrite HS3 by (unfold k in *; lia). apply HR. lia.
Qed.

Lemma sweep_trans D D' psi psi1 psi2 : sweep_ok D D' psi psi1 -> sweep_ok D D' psi1 psi2 -> sweep_ok D D' psi psi2.
Proof.
  intros (H1 & H2 & H3 & H4 & H5) (S1 & S2 & S3 & S4 & S5). split; [exact S1|]. split; [congruence|].
  split; [intros j; eapply Nat.le_trans; [apply S3|apply H3]|]. split; [|exact S5].
  intros He. eapply same_trans; [exact H2|apply H4; exact He|apply S4; exact He].
Qed.

Lemma canonical_form_at_ok D D' psi s : linked D psi D' -> (0 < D)%nat -> okflag D psi -> (s < length psi)%nat ->
  exists psi', canonical_form_at svd flag psi (Z.of_nat s) = Ok psi' /\ sweep_ok D D' psi psi' /\
    (forall j, (j < s)%nat -> left_isometry (site psi' j)) /\
    (forall j, (s < j < length psi)%nat -> right_isometry (site psi' j)).
Proof.
  intros HL HD Hf Hs. unfold canonical_form_at. cbv zeta.
  replace (Z.to_nat (Z.of_nat (length psi) - 1 - Z.of_nat s)) with (length psi - 1 - s)%nat by lia.
  destruct (left_sweep D D' psi (length psi) (length psi - 1 - s) eq_refl HL HD Hf) as (psi1 & E1 & HS1 & HI1 & _); [lia|].
  match goal with |- context [fold_left (canonicalize_site svd flag (-1)) ?l ?x] =>
    replace (fold_left (canonicalize_site svd flag (-1)) l x) with (@Ok mps psi1) by (symmetry; exact E1) end.
  rewrite Nat2Z.id.
  pose proof HS1 as (S1 & S2 & S3 & S4 & S5). pose proof (same_length _ _ S2) as Hlen.
  destruct (right_sweep D D' psi1 s S1 HD S5) as (psi2 & E2 & HS2 & HI2 & HR2); [lia|].
  exists psi2. split; [exact E2|]. split; [eapply sweep_trans; eassumption|]. split; [exact HI2|].
  intros j Hj. rewrite HR2 by lia. apply HI1. lia.
Qed.

(** ** Norms *)
Lemma left_iso_gram p : forall D m, linked D p m -> (forall j, (j < length p)%nat -> left_isometry (site p j)) ->
  forall x y, (x < m)%nat -> (y < m)%nat ->
  sumcfg (pdims p) (fun is => sum D (fun a => kconj (chain p is a x) * chain p is a y)) = delta x y.
Proof.
  induction p as [|A p IH]; intros D m HL HI x y Hx Hy.
  - cbn in HL. subst m. cbn. rewrite (sum_ext D _ (fun a => delta x a * delta a y)).
    + rewrite sum_delta_l' by assumption. reflexivity.
    + intros a Ha. rewrite delta_conj, (delta_sym a x). reflexivity.
  - destruct HL as (d & c & H1 & H2 & H3 & H4 & H5).
    assert (HA : left_isometry A) by (apply (HI 0%nat); cbn; lia).
    assert (Hp : forall j, (j < length p)%nat -> left_isometry (site p j)) by (intros j Hj; apply (HI (S j)); cbn; lia).
    assert (Hdc : dim A 2 = c) by (unfold dim; rewrite H1; reflexivity).
    assert (Hd0 : dim A 0 = D) by (unfold dim; rewrite H1; reflexivity).
    assert (Hd1 : dim A 1 = d) by (unfold dim; rewrite H1; reflexivity).
    rewrite <- (IH c m H5 Hp x y Hx Hy). cbn [pdims map sumcfg chain]. rewrite Hd1, Hdc. fold (pdims p).
    rewrite <- sumcfg_sum_swap.
    apply sumcfg_ext. intros is His.
    transitivity (sum c (fun e => sum c (fun f =>
       kconj (chain p is e x) * chain p is f y * sum D (fun a => sum d (fun i => kconj (get A [a; i; e]) * get A [a; i; f]))))).
    + transitivity (sum d (fun i => sum D (fun a => sum c (fun e => sum c (fun f =>
         kconj (chain p is e x) * chain p is f y * (kconj (get A [a; i; e]) * get A [a; i; f])))))).
      * apply sum_ext. intros i Hi. apply sum_ext. intros a Ha.
        rewrite sum_conj, sum_mul_r. apply sum_ext. intros e He. rewrite sum_mul_l. apply sum_ext. intros f Hf.
        rewrite kconj_mul. ring.
      * rewrite sum_swap.
        transitivity (sum D (fun a => sum c (fun e => sum c (fun f =>
            kconj (chain p is e x) * chain p is f y * sum d (fun i => (kconj (get A [a; i; e]) * get A [a; i; f])))))).
        -- apply sum_ext. intros a Ha. rewrite sum_swap. apply sum_ext. intros e He.
           rewrite sum_swap. apply sum_ext. intros f Hf. rewrite sum_mul_l. reflexivity.
        -- rewrite sum_swap. apply sum_ext. intros e He. rewrite sum_swap. apply sum_ext. intros f Hf.
           rewrite sum_mul_l. reflexivity.
    + apply sum_ext. intros e He.
      transitivity (sum c (fun f => (kconj (chain p is e x) * chain p is f y) * delta e f)).
      * apply sum_ext. intros f Hf. pose proof (HA e f ltac:(rewrite Hdc; assumption) ltac:(rewrite Hdc; assumption)) as X.
        rewrite Hd0, Hd1 in X. rewrite X. reflexivity.
      * rewrite sum_delta_r' by assumption. reflexivity.
Qed.

Lemma right_iso_gram q : forall m D, linked m q D -> (0 < m)%nat ->
  (forall j, (j < length q)%nat -> right_isometry (site q j)) ->
  forall x y, (x < m)%nat -> (y < m)%nat ->
  sumcfg (pdims q) (fun is => sum D (fun b => chain q is x b * kconj (chain q is y b))) = delta x y.
Proof.
  induction q as [|A q IH]; intros m D HL Hm HI x y Hx Hy.
  - cbn in HL. subst m. cbn. rewrite (sum_ext D _ (fun a => delta x a * delta a y)).
    + rewrite sum_delta_l' by assumption. reflexivity.
    + intros a Ha. rewrite delta_conj, (delta_sym a y). reflexivity.
  - destruct HL as (d & c & H1 & H2 & H3 & H4 & H5).
    assert (HA : right_isometry A) by (apply (HI 0%nat); cbn; lia).
    assert (Hp : forall j, (j < length q)%nat -> right_isometry (site q j)) by (intros j Hj; apply (HI (S j)); cbn; lia).
    assert (Hdc : dim A 2 = c) by (unfold dim; rewrite H1; reflexivity).
    assert (Hd0 : dim A 0 = m) by (unfold dim; rewrite H1; reflexivity).
    assert (Hd1 : dim A 1 = d) by (unfold dim; rewrite H1; reflexivity).
    rewrite <- (HA x y) by (rewrite Hd0; assumption). cbn [pdims map sumcfg chain]. rewrite Hd1, Hdc. fold (pdims q).
    apply sum_ext. intros i Hi.
    transitivity (sum c (fun e => sum c (fun f => get A [x; i; e] * kconj (get A [y; i; f]) *
        sumcfg (pdims q) (fun is => sum D (fun b => chain q is e b * kconj (chain q is f b)))))).
    + transitivity (sumcfg (pdims q) (fun is => sum c (fun e => sum c (fun f => get A [x; i; e] * kconj (get A [y; i; f]) *
          sum D (fun b => chain q is e b * kconj (chain q is f b)))))).
      * apply sumcfg_ext. intros is His.
        transitivity (sum D (fun b => sum c (fun e => sum c (fun f => get A [x; i; e] * kconj (get A [y; i; f]) *
           (chain q is e b * kconj (chain q is f b)))))).
        -- apply sum_ext. intros b Hb. rewrite sum_conj, sum_mul_r. apply sum_ext. intros e He.
           rewrite sum_mul_l. apply sum_ext. intros f Hf. rewrite kconj_mul. ring.
        -- rewrite sum_swap. apply sum_ext. intros e He. rewrite sum_swap. apply sum_ext. intros f Hf.
           rewrite sum_mul_l. reflexivity.
      * rewrite sumcfg_sum_swap. apply sum_ext. intros e He. rewrite sumcfg_sum_swap. apply sum_ext. intros f Hf.
        rewrite sumcfg_mul_l. reflexivity.
    + apply sum_ext. intros e He.
      transitivity (sum c (fun f => get A [x; i; e] * kconj (get A [y; i; f]) * delta e f)).
      * apply sum_ext. intros f Hf. rewrite (IH c D H5 H4 Hp e f) by assumption. reflexivity.
      * rewrite sum_delta_r' by assumption. reflexivity.
Qed.

End Facts.
