(** Histories of MPO construction, and the add_* functions at any point of them. *)
From Coq Require Import Bool List Arith ZArith Lia Ring Setoid.
From Verif Require Import Scalar ScalarFacts Tensor TensorFacts Spec MpsModel MpsFacts EnvFacts ExpectedFacts
  MpoSpec MpoModel MpoFacts MpoThread MpoAddFacts MpoAddFacts2 MpoAddFacts3 MpoMatrix HamSpec HamModel HamFacts.
Import ListNotations.
Local Open Scope K_scope.

Section Props.
Context {SC : Scalar}.
Add Ring Kring : k_ring.

(** [built ds O]: the MPO [O] with physical dimensions [ds] was obtained from one of the constructors
    by any sequence of successful add_* calls. *)
Inductive built (ds : list nat) : mpo -> Prop :=
| built_new O : Forall (fun d => (0 < d)%nat) ds -> new_mpo ds = Ok O -> built ds O
| built_local_H Hs O : Forall (fun d => (0 < d)%nat) ds -> ds = map (fun H => dim H 0) Hs ->
    local_Hamiltonian_mpo Hs = Ok O -> built ds O
| built_local O H k O' : built ds O -> add_local_term O H k = Ok O' -> built ds O'
| built_nn O Hi k Hj O' : built ds O -> add_interaction O Hi k Hj = Ok O' -> built ds O'
| built_lr O Hs k sign O' : built ds O -> add_long_range O Hs k sign = Ok O' -> built ds O'
| built_hop O J ad a O' : built ds O -> wf a -> add_hopping_matrix O J ad a = Ok O' -> built ds O'
| built_jw O J ad a sg O' : built ds O -> wf a -> add_jordan_wigner_matrix O J ad a sg = Ok O' -> built ds O'
| built_prod O Hs O' : built ds O -> add_product_term O Hs = Ok O' -> built ds O'.

Lemma built_hform ds O : built ds O -> exists b, hform ds b O.
Proof.
  induction 1 as [O Hp E|Hs O Hp Hd E|O H k O' HB (b & IH) E|O Hi k Hj O' HB (b & IH) E|O Hs k sign O' HB (b & IH) E
    |O J ad a O' HB (b & IH) Hw E|O J ad a sg O' HB (b & IH) Hw E|O Hs O' HB (b & IH) E].
  - destruct (new_mpo_hform _ _ Hp E) as (HF & _). eauto.
  - subst ds. destruct (local_Hamiltonian_adds Hs O) as (HF & _); [rewrite Forall_map in Hp; exact Hp|exact E|exact HF].
  - destruct (add_local_adds _ _ _ _ _ _ IH E) as (_ & _ & (HF & _)). exact HF.
  - destruct (add_nn_adds _ _ _ _ _ _ _ IH E) as (_ & _ & _ & _ & (HF & _)). exact HF.
  - destruct (add_lr_adds _ _ _ _ _ _ _ IH E) as (_ & _ & (HF & _)). exact HF.
  - destruct (add_hopping_adds _ _ _ _ _ _ _ _ IH E Hw) as (HF & _). exact HF.
  - destruct (add_hopping_adds _ _ _ _ _ _ _ _ IH E Hw) as (HF & _). exact HF.
  - destruct (add_product_adds _ _ _ _ _ IH E) as (_ & HF & _). exact HF.
Qed.

(** Shape of every built MPO *)
Lemma built_shape ds O : built ds O -> open_mpo O /\ odims O = ds /\ idims O = ds.
Proof.
  intros HB. destruct (built_hform _ _ HB) as (b & HF). split; [eapply hform_open; exact HF|].
  split; eapply hform_odims; exact HF.
Qed.

(** [sum_of ds O O' M]: O' is again a consistent MPO on the same sites and its matrix is that of O plus M. *)
Definition sum_of (ds : list nat) (O O' : mpo) (M : list nat -> list nat -> K) : Prop :=
  open_mpo O' /\ odims O' = ds /\ idims O' = ds /\
  forall is js, in_range ds is -> in_range ds js -> opelem O' is js = opelem O is js + M is js.

Lemma adds_sum_of ds O O' M : adds ds O O' M -> sum_of ds O O' M.
Proof.
  intros ((b & HF) & HA). split; [eapply hform_open; exact HF|]. split; [eapply hform_odims; exact HF|].
  split; [eapply hform_odims; exact HF|exact HA].
Qed.

Lemma fresh_correct ds : (2 <= length ds)%nat -> Forall (fun d => (0 < d)%nat) ds ->
  exists O, new_mpo ds = Ok O /\ built ds O /\ open_mpo O /\ odims O = ds /\ idims O = ds /\
    forall is js, in_range ds is -> in_range ds js -> opelem O is js = 0.
Proof.
  intros Hn Hp.
  assert (E : exists O, new_mpo ds = Ok O) by (unfold new_mpo; destruct (Nat.ltb_spec (length ds) 2); [lia|eauto]).
  destruct E as (O & E). exists O. split; [exact E|].
  assert (HB : built ds O) by (apply built_new; assumption). split; [exact HB|].
  destruct (built_shape _ _ HB) as (S1 & S2 & S3). repeat (split; [assumption|]).
  apply (new_mpo_hform _ _ Hp E).
Qed.

Lemma fresh_rejects ds : (length ds < 2)%nat -> new_mpo ds = Abort.
Proof. intros H. unfold new_mpo. destruct (Nat.ltb_spec (length ds) 2); [reflexivity|lia]. Qed.

Definition sq (ds : list nat) (k : nat) (t : tensor) : Prop := dims t = [nth k ds 0; nth k ds 0]%nat.

Lemma local_correct ds O H k : built ds O ->
  ((0 <= k < Z.of_nat (length ds))%Z -> sq ds (Z.to_nat k) H ->
    exists O', add_local_term O H k = Ok O' /\ built ds O' /\ sum_of ds O O' (site_op (Z.to_nat k) (mat H)) /\
      forall j, j <> Z.to_nat k -> site O' j = site O j) /\
  (~ ((0 <= k < Z.of_nat (length ds))%Z /\ sq ds (Z.to_nat k) H) -> add_local_term O H k = Abort).
Proof.
  intros HB. destruct (built_hform _ _ HB) as (b & HF). split.
  - intros Hk Hd. destruct (add_local_ok _ _ _ _ _ HF Hk Hd) as (O' & E). exists O'. split; [exact E|].
    split; [eapply built_local; eassumption|]. split; [apply adds_sum_of; eapply add_local_adds; eassumption|].
    intros j Hj. revert E. unfold add_local_term.
    repeat (match goal with |- context [if ?c then Abort else _] => destruct c end; try discriminate).
    intros E; apply Ok_inj in E; subst O'. unfold site. apply nth_replace_nth_neq. exact Hj.
  - intros Hn. destruct (add_local_term O H k) as [O'|] eqn:E; [|reflexivity]. exfalso. apply Hn.
    destruct (add_local_adds _ _ _ _ _ _ HF E) as (H1 & H2 & _). split; assumption.
Qed.

Lemma nn_correct ds O Hi k Hj : built ds O ->
  ((0 <= k)%Z -> (k + 1 < Z.of_nat (length ds))%Z -> sq ds (Z.to_nat k) Hi -> sq ds (S (Z.to_nat k)) Hj ->
    exists O', add_interaction O Hi k Hj = Ok O' /\ built ds O' /\
      sum_of ds O O' (two_site (Z.to_nat k) (S (Z.to_nat k)) (mat Hi) (mat Hj))) /\
  (~ ((0 <= k)%Z /\ (k + 1 < Z.of_nat (length ds))%Z /\ sq ds (Z.to_nat k) Hi /\ sq ds (S (Z.to_nat k)) Hj) ->
   add_interaction O Hi k Hj = Abort).
Proof.
  intros HB. destruct (built_hform _ _ HB) as (b & HF). split.
  - intros Hk Hk1 Hd Hd'. destruct (add_nn_ok _ _ _ _ _ _ HF Hk Hk1 Hd Hd') as (O' & E). exists O'. split; [exact E|].
    split; [eapply built_nn; eassumption|]. apply adds_sum_of.
    destruct (add_nn_adds _ _ _ _ _ _ _ HF E) as (_ & _ & _ & _ & A). exact A.
  - intros Hn. destruct (add_interaction O Hi k Hj) as [O'|] eqn:E; [|reflexivity]. exfalso. apply Hn.
    destruct (add_nn_adds _ _ _ _ _ _ _ HF E) as (H1 & H2 & H3 & H4 & _). split; [exact H1|]. split; [exact H2|]. split; assumption.
Qed.

(** The string operator: given, or the identity *)
Definition string_of (sign : option tensor) : nat -> nat -> K :=
  match sign with Some s => mat s | None => delta end.

Lemma lr_correct ds O Hs k sign : built ds O ->
  ((0 <= k < Z.of_nat (length ds))%Z -> length Hs = length ds ->
   (forall j, (j < length ds)%nat -> sq ds j (nth j Hs empty) /\ match sign with Some s => sq ds j s | None => True end) ->
    exists O', add_long_range O Hs k sign = Ok O' /\ built ds O' /\
      sum_of ds O O' (star_op (length ds) (Z.to_nat k) (fun j => mat (nth j Hs empty)) (fun _ => string_of sign))) /\
  (~ ((0 <= k < Z.of_nat (length ds))%Z /\ length Hs = length ds /\
      forall j, (j < length ds)%nat -> sq ds j (nth j Hs empty) /\ match sign with Some s => sq ds j s | None => True end) ->
   add_long_range O Hs k sign = Abort).
Proof.
  intros HB. destruct (built_hform _ _ HB) as (b & HF). split.
  - intros Hk Hl Hd. destruct (add_lr_ok _ _ _ Hs k sign HF Hk (conj Hl Hd)) as (O' & E). exists O'. split; [exact E|].
    split; [eapply built_lr; eassumption|]. apply adds_sum_of.
    destruct (add_lr_adds _ _ _ _ _ _ _ HF E) as (_ & _ & A). exact A.
  - intros Hn. destruct (add_long_range O Hs k sign) as [O'|] eqn:E; [|reflexivity]. exfalso. apply Hn.
    destruct (add_lr_adds _ _ _ _ _ _ _ HF E) as (H1 & (H2 & H3) & _). split; [exact H1|]. split; [exact H2|exact H3].
Qed.

Lemma jw_correct ds O J ad a sg : built ds O -> wf a -> dims J = [length ds; length ds] ->
  (forall k, (k < length ds)%nat -> sq ds k ad /\ sq ds k a /\ sq ds k sg) ->
  exists O', add_jordan_wigner_matrix O J ad a sg = Ok O' /\ built ds O' /\
    sum_of ds O O' (hopping_op (length ds) (mat J) (mat ad) (mat a) (mat sg)).
Proof.
  intros HB Hw HJ Hd. destruct (built_hform _ _ HB) as (b & HF).
  destruct (add_hopping_ok _ _ _ J ad a sg HF HJ Hd) as (O' & E). exists O'. split; [exact E|].
  split; [eapply built_jw; eassumption|]. apply adds_sum_of. eapply add_hopping_adds; eassumption.
Qed.

Lemma hopping_op_ext ds n J ad a S S' is js : in_range ds is -> in_range ds js -> n = length ds ->
  (forall k x y, (k < length ds)%nat -> (x < nth k ds 0)%nat -> (y < nth k ds 0)%nat -> S x y = S' x y) ->
  hopping_op n J ad a S is js = hopping_op n J ad a S' is js.
Proof.
  intros Hi Hj -> HS. unfold hopping_op. apply sum_ext. intros j Hjn. apply sum_ext. intros i Hin.
  destruct (Nat.eqb i j); [reflexivity|]. f_equal. apply (product_op_ext_ds ds); try assumption.
  intros k x y Hk Hx Hy. destruct (Nat.eqb k j); [reflexivity|]. destruct (Nat.eqb k i); [reflexivity|].
  destruct (_ && _); [apply (HS k); (assumption || lia)|reflexivity].
Qed.

Lemma hopping_correct ds O J ad a : built ds O -> wf a -> dims J = [length ds; length ds] ->
  (forall k, (k < length ds)%nat -> sq ds k ad /\ sq ds k a) ->
  exists O', add_hopping_matrix O J ad a = Ok O' /\ built ds O' /\
    sum_of ds O O' (hopping_op (length ds) (mat J) (mat ad) (mat a) delta).
Proof.
  intros HB Hw HJ Hd. destruct (built_hform _ _ HB) as (b & HF).
  assert (Ha : forall k, (k < length ds)%nat -> dim a 0 = nth k ds 0%nat).
  { intros k Hk. destruct (Hd k Hk) as (_ & H). unfold dim. rewrite H. reflexivity. }
  destruct (add_hopping_ok _ _ _ J ad a (eye (dim a 0)) HF HJ) as (O' & E).
  { intros k Hk. destruct (Hd k Hk). split; [assumption|]. split; [assumption|]. rewrite (Ha k Hk). reflexivity. }
  exists O'. split; [exact E|]. split; [eapply built_hop; eassumption|].
  destruct (adds_sum_of _ _ _ _ (add_hopping_adds _ _ _ _ _ _ _ _ HF E Hw)) as (S1 & S2 & S3 & S4).
  split; [exact S1|]. split; [exact S2|]. split; [exact S3|]. intros is js Hi Hj. rewrite S4 by assumption. f_equal.
  apply (hopping_op_ext ds); try assumption; [reflexivity|]. intros k x y Hk Hx Hy. rewrite <- (Ha k Hk) in Hx, Hy.
  apply get_eye; assumption.
Qed.

Lemma hopping_rejects O J ad a sg : ~ (dims J = [length O; length O]) -> add_hopping O J ad a sg = Abort.
Proof.
  intros Hn. unfold add_hopping. destruct (Nat.eqb (rank J) 2 && _ && _) eqn:E; [|reflexivity].
  exfalso. apply Hn. apply andb_true_iff in E. destruct E as (E & E3). apply andb_true_iff in E. destruct E as (E1 & E2).
  apply Nat.eqb_eq in E1, E2, E3. unfold rank, dim in *. destruct (dims J) as [|x [|y [|]]]; try discriminate. cbn in *. congruence.
Qed.

(** The tensor is the identity matrix. *)
Definition is_id (t : tensor) : Prop := forall x y, (x < dim t 0)%nat -> (y < dim t 0)%nat -> get t [x; y] = delta x y.

Lemma is_identity_iff t d : is_matrix t d d -> (is_identity t = true <-> is_id t).
Proof.
  intros (HD & Hw). assert (Hd : dim t 0 = d) by (unfold dim; rewrite HD; reflexivity). split.
  - intros E x y Hx Hy. rewrite Hd in *. apply (is_identity_get t d); assumption.
  - intros Hid. assert (E : t = eye d).
    { apply tensor_ext; [exact Hw|apply wf_mk|exact HD|]. intros is Hi. rewrite HD in Hi.
      destruct (in_range_cons_inv _ _ _ Hi) as (x & r & -> & Hx & Hr). destruct (in_range_cons_inv _ _ _ Hr) as (y & r' & -> & Hy & Hr').
      apply in_range_nil_inv in Hr'. subst r'. rewrite Hid by (rewrite Hd; assumption). symmetry. apply get_eye; assumption. }
    rewrite E. unfold is_identity, tensor_eqb, rank, dim. cbn [eye mk dims length nth]. rewrite !Nat.eqb_refl. cbn [andb].
    destruct (list_eq_dec _ _ _); [|congruence]. rewrite andb_true_r. cbn [andb].
    apply forallb_forall. intros (u, v) Huv. apply keqb_eq. cbn.
    revert Huv. generalize (data (eye d)). intros l. induction l as [|w l IH]; cbn; [tauto|]. intros [[= <- <-]|H]; auto.
Qed.

Lemma prod_correct ds O Hs : built ds O ->
  (length Hs = length ds -> (forall k, (k < length ds)%nat -> sq ds k (nth k Hs empty) /\ wf (nth k Hs empty)) ->
    ~ (forall k, (k < length ds)%nat -> is_id (nth k Hs empty)) ->
    exists O', add_product_term O Hs = Ok O' /\ built ds O' /\
      sum_of ds O O' (product_op 0 (fun k => mat (nth k Hs empty)))) /\
  (length Hs = length ds -> (forall k, (k < length ds)%nat -> sq ds k (nth k Hs empty) /\ wf (nth k Hs empty)) ->
    (forall k, (k < length ds)%nat -> is_id (nth k Hs empty)) ->
    exists O', add_product_term O Hs = Ok O' /\ built ds O' /\ sum_of ds O O' (fun _ _ => 0)) /\
  (~ (length Hs = length ds /\ forall k, (k < length ds)%nat -> sq ds k (nth k Hs empty)) ->
   add_product_term O Hs = Abort).
Proof.
  intros HB. destruct (built_hform _ _ HB) as (b & HF).
  assert (Hid : (forall k, (k < length ds)%nat -> sq ds k (nth k Hs empty) /\ wf (nth k Hs empty)) ->
    ((forall k, (k < length ds)%nat -> is_identity (nth k Hs empty) = true) <-> (forall k, (k < length ds)%nat -> is_id (nth k Hs empty)))).
  { intros Hd. split; intros H k Hk; specialize (H k Hk); eapply is_identity_iff; try eassumption; apply (Hd k Hk). }
  assert (Hex : length Hs = length ds -> (forall k, (k < length ds)%nat -> sq ds k (nth k Hs empty) /\ wf (nth k Hs empty)) ->
     exists O', add_product_term O Hs = Ok O').
  { intros Hl Hd. apply (add_product_ok _ _ _ Hs HF). split; [exact Hl|]. intros k Hk. apply Hd. exact Hk. }
  split; [|split].
  - intros Hl Hd Hn. destruct (Hex Hl Hd) as (O' & E). exists O'. split; [exact E|]. split; [eapply built_prod; eassumption|].
    apply adds_sum_of. destruct (add_product_adds _ _ _ _ _ HF E) as (_ & _ & A & _). apply A. rewrite (Hid Hd). exact Hn.
  - intros Hl Hd Hn. destruct (Hex Hl Hd) as (O' & E). exists O'. split; [exact E|]. split; [eapply built_prod; eassumption|].
    apply adds_sum_of. destruct (add_product_adds _ _ _ _ _ HF E) as (_ & _ & _ & A). apply A. rewrite (Hid Hd). exact Hn.
  - intros Hn. destruct (add_product_term O Hs) as [O'|] eqn:E; [|reflexivity]. exfalso. apply Hn.
    destruct (add_product_adds _ _ _ _ _ HF E) as (H1 & _). exact H1.
Qed.

Lemma local_H_correct Hs : (2 <= length Hs)%nat -> Forall (fun H => exists d, (0 < d)%nat /\ dims H = [d; d]) Hs ->
  exists O, local_Hamiltonian_mpo Hs = Ok O /\
    let ds := map (fun H => dim H 0) Hs in
    built ds O /\ open_mpo O /\ odims O = ds /\ idims O = ds /\
    forall is js, in_range ds is -> in_range ds js ->
      opelem O is js = sum (length Hs) (fun k => site_op k (mat (nth k Hs empty)) is js).
Proof.
  intros Hn Hd.
  assert (Hp : Forall (fun H => (0 < dim H 0)%nat) Hs).
  { eapply Forall_impl; [|exact Hd]. intros H (d & H1 & H2). unfold dim. rewrite H2. exact H1. }
  assert (E : exists O, local_Hamiltonian_mpo Hs = Ok O).
  { unfold local_Hamiltonian_mpo. destruct (Nat.ltb_spec (length Hs) 2); [lia|].
    replace (forallb is_square Hs) with true; [eauto|]. symmetry. apply forallb_forall. intros t HIn.
    rewrite Forall_forall in Hd. destruct (Hd t HIn) as (d & _ & H2). unfold is_square, rank, dim. rewrite H2. cbn. apply Nat.eqb_refl. }
  destruct E as (O & E). exists O. split; [exact E|]. cbv zeta.
  assert (HB : built (map (fun H => dim H 0) Hs) O) by (eapply built_local_H; [rewrite Forall_map; exact Hp|reflexivity|exact E]).
  split; [exact HB|]. destruct (built_shape _ _ HB) as (S1 & S2 & S3). repeat (split; [assumption|]).
  apply (local_Hamiltonian_adds Hs O Hp E).
Qed.

Lemma local_H_rejects Hs : (length Hs < 2)%nat \/ (exists H, In H Hs /\ is_square H = false) -> local_Hamiltonian_mpo Hs = Abort.
Proof.
  intros HH. unfold local_Hamiltonian_mpo. destruct (Nat.ltb_spec (length Hs) 2); [reflexivity|].
  destruct HH as [HH|(t & Hin & Hsq)]; [lia|].
  destruct (forallb is_square Hs) eqn:E; [|reflexivity]. rewrite forallb_forall in E. rewrite (E t Hin) in Hsq. discriminate.
Qed.

Lemma adjoint_across O a b sense : wf_mpo O -> wf_mps a -> wf_mps b ->
  odims O = pdims a -> idims O = pdims b -> pdims a = pdims b ->
  exists ob oa x, apply O b = Ok ob /\ apply (adjoint_z O) a = Ok oa /\
    scprod a ob sense = Ok x /\ scprod oa b sense = Ok x.
Proof.
  intros HO Ha Hb H1 H2 H3. destruct (adjoint_z_correct O HO) as (A1 & A2 & A3 & A4).
  destruct (apply_correct O b HO Hb H2) as (ob & E1 & W1 & P1 & _ & V1).
  destruct (apply_correct (adjoint_z O) a A1 Ha ltac:(congruence)) as (oa & E2 & W2 & P2 & _ & V2).
  exists ob, oa. eexists. split; [exact E1|]. split; [exact E2|].
  rewrite (scprod_correct a ob sense Ha W1) by congruence.
  rewrite (scprod_correct oa b sense W2 Hb) by congruence.
  split; [reflexivity|]. f_equal. rewrite P2, A2, H2, H3.
  transitivity (inner (pdims b) (op_apply (pdims b) (opelem (adjoint_z O)) (amp a)) (amp b)).
  - unfold inner. apply sumcfg_ext. intros is Hi. rewrite V2 by (rewrite A2, H2; exact Hi). rewrite H3. reflexivity.
  - rewrite <- (adjoint_moves (pdims b) (opelem O)).
    + unfold inner. apply sumcfg_ext. intros is Hi. rewrite V1 by (rewrite H1, H3; exact Hi). reflexivity.
    + intros is js Hi Hj. apply A4; [rewrite H1, H3|rewrite H2]; assumption.
Qed.

End Props.
