(** * The local problems solved by minimize() *)
From Coq Require Import Reals Lra Bool List Arith ZArith Lia Ring.
From Verif Require Import Scalar ScalarFacts RScal Tensor TensorFacts Spec MpsModel MpsFacts StateFacts StateFacts2 MpoSpec MpoFacts CanonSpec CanonModel
  TruncFacts SplitFacts CanonFacts CanonSweep CanonNorm CanonProps CanonTwo FormModel FormSpec LFormFacts QFormFacts SparseFacts Properties_Quantum QFormInv QFormValue QFormMain
  SimplifySpec SimplifyModel SimplifyFacts SimplifyStep SimplifyDouble MinimizerModel MinLive MinimizeSpec.
Import ListNotations.
Local Open Scope K_scope.

Section Local.
Context {RS : RScal}.
Add Ring Kring : k_ring.
Variables (H : mpo) (ds : list nat).
Hypothesis HH : hamiltonian H ds.

Lemma H_open : open_mpo H.
Proof. apply HH. Qed.
Lemma H_o : odims H = ds.
Proof. apply HH. Qed.
Lemma H_i : idims H = ds.
Proof. apply HH. Qed.
Lemma H_sq : odims H = idims H.
Proof. rewrite H_o, H_i. reflexivity. Qed.

Lemma sandwich_conj A B : pdims A = ds -> pdims B = ds -> kconj (sandwich A H B) = sandwich B H A.
Proof.
  intros HA HB. unfold sandwich. rewrite HA, HB. rewrite sumcfg_conj.
  rewrite (sumcfg_ext ds _ (fun is => sumcfg ds (fun js => kconj (amp B js) * opelem H js is * amp A is))).
  - apply sumcfg_swap.
  - intros is Hi. rewrite sumcfg_conj. apply sumcfg_ext. intros js Hj. rewrite !kconj_mul, kconj_inv.
    destruct HH as (_ & _ & _ & Hherm & _). rewrite (Hherm js is Hj Hi). ring.
Qed.

(** A family of states depending on n numbers, the energy being the quadratic form M *)
Definition family (n : nat) (emb : (nat -> K) -> mps) (M : nat -> nat -> K) : Prop :=
  (forall x, open_mps (emb x) /\ pdims (emb x) = ds) /\
  (forall x, weight ds (amp (emb x)) = rsum n (fun i => kmod2 (x i))) /\
  (forall x y, sandwich (emb x) H (emb y) = sum n (fun r => sum n (fun c => kconj (x r) * M r c * y c))).

Lemma sum_delta2 n (M : nat -> nat -> K) i j : (i < n)%nat -> (j < n)%nat ->
  sum n (fun r => sum n (fun c => kconj (delta i r) * M r c * delta j c)) = M i j.
Proof.
  intros Hi Hj. rewrite (sum_ext n _ (fun r => delta i r * M r j)).
  - rewrite sum_delta_l' by exact Hi. reflexivity.
  - intros r Hr. rewrite (sum_ext n _ (fun c => delta j c * (kconj (delta i r) * M r c))) by (intros; ring).
    rewrite sum_delta_l' by exact Hj. unfold delta. destruct (Nat.eqb i r); rewrite ?kconj_0, ?kconj_1; reflexivity.
Qed.

Lemma family_hermitian n emb M : family n emb M -> hermitian n M.
Proof.
  intros (F1 & _ & F3) i j Hi Hj. rewrite <- (sum_delta2 n M i j), <- (sum_delta2 n M j i) by assumption. rewrite <- !F3.
  rewrite sandwich_conj; [reflexivity|apply F1|apply F1].
Qed.

Lemma energy_sandwich psi : energy H psi = kre (sandwich psi H psi).
Proof. reflexivity. Qed.

Lemma family_ground n emb M e p : family n emb M -> ground_state n M e p ->
  weight ds (amp (emb p)) = 1%R /\ energy H (emb p) = e /\ forall x, (e * weight ds (amp (emb x)) <= energy H (emb x))%R.
Proof.
  intros (F1 & F2 & F3) (G1 & G2 & G3). split; [rewrite F2; exact G1|]. split.
  - rewrite energy_sandwich, F3. rewrite (sum_ext n _ (fun r => rinj (e * kmod2 (p r)))).
    + rewrite <- rinj_rsum, kre_rinj. transitivity (e * rsum n (fun i => kmod2 (p i)))%R; [|rewrite G1; ring]. clear. induction n as [|n IH]; cbn; [ring|]. rewrite IH. ring.
    + intros r Hr. rewrite (sum_ext n _ (fun c => kconj (p r) * (M r c * p c))) by (intros; ring). rewrite <- sum_mul_l, G2 by exact Hr.
      rewrite rinj_mul, kmod2_spec. ring.
  - intros x. rewrite F2, energy_sandwich, F3. apply G3.
Qed.

(** the tensor with the given elements *)
Definition ten (d : list nat) (x : nat -> K) : tensor := mkT d (map x (seq 0 (nprod d))).

Lemma wf_ten d x : wf (ten d x).
Proof. unfold wf. cbn. rewrite map_length, seq_length. reflexivity. Qed.
Lemma nth_ten d x r : (r < nprod d)%nat -> nth r (data (ten d x)) 0 = x r.
Proof. intros Hr. cbn [ten data]. apply (nth_map_seq x). exact Hr. Qed.
Lemma get_ten d x u : in_range d u -> get (ten d x) u = x (offset d u).
Proof. intros Hu. unfold get. cbn [ten dims]. apply nth_ten. apply offset_lt. exact Hu. Qed.
Lemma ten_self t : wf t -> ten (dims t) (fun r => nth r (data t) 0) = t.
Proof.
  intros Hw. destruct t as [d l]. unfold ten. cbn [dims data]. f_equal. unfold wf in Hw. cbn [dims data] in Hw. rewrite <- Hw.
  apply (nth_ext _ _ 0 0); [rewrite map_length, seq_length; reflexivity|]. intros n Hn. rewrite map_length, seq_length in Hn.
  rewrite (nth_map_seq (fun r => nth r l 0)) by exact Hn. reflexivity.
Qed.

Lemma frob2_ten d x : frob2 (ten d x) = rsum (nprod d) (fun i => kmod2 (x i)).
Proof.
  unfold frob2. cbn [ten data]. generalize (nprod d). clear d. intros n.
  assert (E : forall a, fold_right (fun x r => (kmod2 x + r)%R) a (map x (seq 0 n)) = (rsum n (fun i => kmod2 (x i)) + a)%R).
  { induction n as [|n IH]; intros a; [cbn; lra|]. rewrite seq_S, map_app, fold_right_app. cbn [map fold_right Nat.add rsum]. rewrite IH. ring. }
  rewrite E. lra.
Qed.

(** Positions of the environments *)
Variable b : nat -> nat.
Hypothesis Hb : path H b.

Definition QAt (k : nat) (P : mps) (f : qform) : Prop :=
  open_mps P /\ pdims P = ds /\ (k < length P)%nat /\
  qf_history H f (firstn k P) (skipn (S k) P) (firstn k P) (skipn (S k) P) /\ live H b f.

Lemma qat_qinv k P f : QAt k P f -> qinv H f (firstn k P) (skipn (S k) P) (firstn k P) (skipn (S k) P).
Proof. intros (_ & _ & _ & Hh & _). apply (history_qinv H H_open H_sq _ _ _ _ _ Hh). Qed.

(** One site *)
Definition emb1 (k : nat) (P : mps) (x : nat -> K) : mps := replace_nth k (ten (dims (site P k)) x) P.

Lemma emb1_open k P x : open_mps P -> pdims P = ds -> (k < length P)%nat -> open_mps (emb1 k P x) /\ pdims (emb1 k P x) = ds.
Proof.
  intros Ho Hd Hk. destruct (open_replace P k (ten (dims (site P k)) x) Ho Hk (wf_ten _ _) eq_refl) as (H1 & H2). split; [exact H1|]. unfold emb1. congruence.
Qed.

Lemma canon_weight k P : open_mps P -> pdims P = ds -> (k < length P)%nat -> canonical_at k P -> weight ds (amp P) = frob2 (site P k).
Proof. intros Ho <- Hk (H1 & H2). apply rinj_inj. rewrite rinj_weight. apply canonical_norm; assumption. Qed.

Lemma emb1_weight k P x : open_mps P -> pdims P = ds -> (k < length P)%nat -> canonical_at k P ->
  weight ds (amp (emb1 k P x)) = rsum (nprod (dims (site P k))) (fun i => kmod2 (x i)).
Proof.
  intros Ho Hd Hk Hc. destruct (emb1_open k P x Ho Hd Hk) as (O1 & D1).
  rewrite (canon_weight k (emb1 k P x) O1 D1).
  - unfold emb1. rewrite site_replace_eq by exact Hk. apply frob2_ten.
  - unfold emb1. rewrite length_replace_nth. exact Hk.
  - apply canonical_replace. exact Hc.
Qed.

Lemma checked_reshape_ok v d : wf v -> dims v = [nprod d] -> checked_reshape v d = Ok (reshape v d) /\ reshape v d = ten d (fun i => get v [i]).
Proof.
  intros Hw Hd. unfold checked_reshape. unfold wf in Hw. rewrite Hd in Hw. cbn in Hw. rewrite Nat.mul_1_r in Hw. rewrite Hw, Nat.eqb_refl. split; [reflexivity|].
  unfold reshape, ten. f_equal. apply (nth_ext _ _ 0 0); [rewrite map_length, seq_length; exact Hw|]. intros n Hn.
  rewrite (nth_map_seq (fun i => get v [i])) by lia. unfold get. rewrite Hd. cbn. rewrite Nat.mul_0_r, Nat.add_0_r. reflexivity.
Qed.

Lemma one_family k P f : QAt k P f -> canonical_at k P ->
  let d := dims (site P k) in
  exists M, family (nprod d) (emb1 k P) M /\ acts_as (apply_qform1 d f []) (nprod d) M.
Proof.
  intros HQ Hc d. pose proof HQ as (Ho & Hd & Hk & Hh & Hlive). pose proof (qat_qinv k P f HQ) as Hi.
  assert (Hsp : forall x, linked 1 (firstn k P ++ ten d x :: skipn (S k) P) 1 /\ pdims (firstn k P ++ ten d x :: skipn (S k) P) = ds /\ emb1 k P x = firstn k P ++ ten d x :: skipn (S k) P).
  { intros x. destruct (emb1_open k P x Ho Hd Hk) as ((_ & H1) & H2). unfold emb1 in *. fold d in H1, H2 |- *. rewrite (replace_split k _ P Hk) in H1, H2 |- *. auto. }
  destruct (Hsp (fun _ => 0)) as (L0 & D0 & _).
  destruct (single_matrix_value H H_open H_sq f _ _ _ _ _ _ Hi L0 L0 ltac:(rewrite D0; symmetry; apply H_o) ltac:(rewrite D0; symmetry; apply H_i)) as (Mt & EM & _ & _).
  assert (HM : forall x y, sandwich (emb1 k P x) H (emb1 k P y) = sum (nprod d) (fun r => sum (nprod d) (fun c => kconj (x r) * elem Mt [r; c] * y c))).
  { intros x y. destruct (Hsp x) as (Lx & Dx & ->). destruct (Hsp y) as (Ly & Dy & ->).
    destruct (single_matrix_value H H_open H_sq f _ _ _ _ _ _ Hi Lx Ly ltac:(rewrite Dx; symmetry; apply H_o) ltac:(rewrite Dy; symmetry; apply H_i)) as (M' & EM' & _ & <-).
    rewrite EM in EM'. apply Ok_inj' in EM'. subst M'. unfold msandwich. cbn [dims ten]. apply sum_ext. intros r Hr. apply sum_ext. intros c Hc'.
    rewrite !nth_ten by assumption. reflexivity. }
  exists (fun r c => elem Mt [r; c]). split.
  - split; [intros x; apply emb1_open; assumption|]. split; [intros x; apply emb1_weight; assumption|exact HM].
  - intros v Hwv Hdv. destruct (checked_reshape_ok v d Hwv Hdv) as (E1 & E2). unfold apply_qform1. rewrite E1. cbn [bind]. rewrite E2.
    change (orthogonalize (ten d (fun i => get v [i])) []) with (ten d (fun i => get v [i])).
    set (x := fun i => get v [i]). destruct (Hsp x) as (Lx & Dx & Ex).
    assert (HS : forall y, exists w, apply_one_site_matrix f (ten d x) = Ok w /\ dims w = d /\ wf w /\ is_empty w = false /\
      sumcfg d (fun u => kconj (get (ten d y) u) * get w u) = sandwich (emb1 k P y) H (emb1 k P x)).
    { intros y. destruct (Hsp y) as (Ly & Dy & ->). rewrite Ex.
      destruct (apply_one_value H H_open H_sq f _ _ _ _ _ _ Hi Ly Lx ltac:(rewrite Dy; symmetry; apply H_o) ltac:(rewrite Dx; symmetry; apply H_i)) as (w & Ew & Hdw & Hv).
      pose proof (live_apply1 H H_open H_sq b Hb f _ _ _ _ _ _ w Hi Hlive Ly Lx ltac:(rewrite Dy; symmetry; apply H_o) ltac:(rewrite Dx; symmetry; apply H_i) Ew) as He.
      exists w. destruct Hdw as [Hdw|Hdw]; [congruence|]. split; [exact Ew|]. split; [exact Hdw|]. split; [|split; [exact He|]].
      - destruct (one_site_setup H H_open H_sq f _ _ _ _ _ _ Hi Ly Lx ltac:(rewrite Dy; symmetry; apply H_o) ltac:(rewrite Dx; symmetry; apply H_i)) as
          (ra & rb & ca & cb & d1 & S1 & T1 & _ & _ & Hpos & _ & _ & _ & _ & Ht & Hps & HL & HR & _).
        destruct (apply_one_vten _ _ _ _ _ _ _ _ _ _ _ _ Ht Hpos HL HR _ T1) as (w' & Ew' & HV).
        assert (Eh : qf_here f = length (firstn k P)) by apply Hi. unfold apply_one_site_matrix in Ew. rewrite Eh, Hps in Ew.
        pose proof (eq_trans (eq_sym Ew) Ew') as E. apply Ok_inj' in E. subst w'. apply (vten_full _ _ _ HV He).
      - rewrite <- Hv. apply sumcfg_ext. intros u Hu. unfold elem. rewrite He. reflexivity. }
    destruct (HS x) as (w & Ew & Hdw & Hww & Hew & _). rewrite Ew. cbn [bind]. change (orthogonalize w []) with w.
    assert (Elw : length (data w) = nprod d) by (rewrite <- Hdw; exact Hww).
    assert (Elv : length (data v) = nprod d) by (unfold wf in Hwv; rewrite Hdv in Hwv; cbn in Hwv; rewrite Hwv; lia).
    unfold checked_reshape. rewrite Elv, Elw. cbn [nprod fold_right]. rewrite Nat.mul_1_r, Nat.eqb_refl.
    exists (reshape w [nprod d]). split; [reflexivity|]. split; [unfold wf; cbn; rewrite Elw; lia|]. split; [reflexivity|].
    intros r Hr. change (get (reshape w [nprod d]) [r]) with (nth (r + nprod d * 0) (data w) 0). rewrite Nat.mul_0_r, Nat.add_0_r.
    destruct (HS (delta r)) as (w' & Ew' & _ & _ & _ & Hv). rewrite Ew in Ew'. apply Ok_inj' in Ew'. subst w'. rewrite HM in Hv.
    assert (Hl : sumcfg d (fun u => kconj (get (ten d (delta r)) u) * get w u) = nth r (data w) 0).
    { rewrite (sumcfg_ext d _ (fun u => kconj (delta r (offset d u)) * nth (offset d u) (data w) 0)).
      - rewrite <- (sum_offset d (fun q => kconj (delta r q) * nth q (data w) 0)).
        rewrite (sum_ext _ _ (fun q => delta r q * nth q (data w) 0)) by (intros q _; unfold delta; destruct (Nat.eqb r q); rewrite ?kconj_0, ?kconj_1; reflexivity).
        exact (sum_delta_l' (nprod d) r (fun q => nth q (data w) 0) Hr).
      - intros u Hu. rewrite get_ten by exact Hu. unfold get. rewrite Hdw. reflexivity. }
    rewrite <- Hl, Hv.
    rewrite (sum_ext _ _ (fun q => delta r q * sum (nprod d) (fun c => elem Mt [q; c] * x c))).
    + rewrite sum_delta_l' by exact Hr. reflexivity.
    + intros q _. rewrite sum_mul_l. apply sum_ext. intros c _. unfold delta. destruct (Nat.eqb r q); rewrite ?kconj_0, ?kconj_1; ring.
Qed.

(** Equal amplitudes, equal energies *)
Lemma energy_ext P P' : pdims P = ds -> pdims P' = ds -> (forall is, in_range ds is -> amp P' is = amp P is) ->
  energy H P' = energy H P /\ weight ds (amp P') = weight ds (amp P).
Proof.
  intros HP HP' He. unfold energy, energy_of, weight, inner. rewrite HP, HP'. split; f_equal.
  - apply sumcfg_ext. intros is Hi. apply sumcfg_ext. intros js Hj. rewrite !He by assumption. reflexivity.
  - apply sumcfg_ext. intros is Hi. rewrite !He by assumption. reflexivity.
Qed.

(** Two sites: the first tensor becomes an isometry, so that the second one holds all the elements. *)
Definition id3 (a i : nat) : tensor := mk [a; i; a * i]%nat (fun u => delta (nth 0 u 0 + a * nth 1 u 0)%nat (nth 2 u 0%nat)).
Definition emb2 (kk : nat) (P : mps) (x : nat -> K) : mps :=
  let a := dim (site P kk) 0 in let i := dim (site P kk) 1 in let j := dim (site P (S kk)) 1 in let c := dim (site P (S kk)) 2 in
  put2 kk P (id3 a i) (ten [a * i; j; c]%nat x).

Lemma id3_get a i x y q : (x < a)%nat -> (y < i)%nat -> (q < a * i)%nat -> get (id3 a i) [x; y; q] = delta (x + a * y)%nat q.
Proof. intros Hx Hy Hq. unfold id3. rewrite get_mk by (apply in_range_3; assumption). reflexivity. Qed.

Lemma lt_merge x y a i : (x < a)%nat -> (y < i)%nat -> (x + a * y < a * i)%nat.
Proof. nia. Qed.

Lemma merge_inj a x y x' y' : (x < a)%nat -> (x' < a)%nat -> (x + a * y = x' + a * y')%nat -> x = x' /\ y = y'.
Proof.
  intros Hx Hx' E. assert (y = y') as ->; [|split; lia]. destruct (lt_eq_lt_dec y y') as [[Hl|E0]|Hl]; [|exact E0|]; exfalso; nia.
Qed.

Lemma id3_iso a i : left_isometry (id3 a i).
Proof.
  intros u v Hu Hv. unfold id3, dim in *. rewrite dims_mk in *. cbn [nth] in *. fold (id3 a i).
  rewrite (sum_ext a _ (fun x => sum i (fun y => delta (x + a * y)%nat u * delta (x + a * y)%nat v))).
  - rewrite sum_swap. rewrite <- (sum_merge a i (fun z => delta z u * delta z v)). rewrite sum_delta_l by exact Hu. reflexivity.
  - intros x Hx. apply sum_ext. intros y Hy. rewrite !id3_get by (try assumption; apply lt_merge; assumption).
    unfold delta. destruct (Nat.eqb _ u); rewrite ?kconj_0, ?kconj_1; reflexivity.
Qed.

Lemma join_id3 a i j c x u v w z : (u < a)%nat -> (v < i)%nat -> (w < j)%nat -> (z < c)%nat ->
  joined (id3 a i) (ten [a * i; j; c]%nat x) u v w z = x (offset [a; i; j; c] [u; v; w; z]).
Proof.
  intros Hu Hv Hw Hz. unfold joined. change (dim (id3 a i) 2) with (a * i)%nat.
  rewrite (sum_ext _ _ (fun q => delta (u + a * v)%nat q * get (ten [a * i; j; c]%nat x) [q; w; z])).
  - rewrite sum_delta_l' by (apply lt_merge; assumption). rewrite get_ten by (apply in_range_3; try assumption; apply lt_merge; assumption).
    f_equal. cbn [offset]. nia.
  - intros q Hq. rewrite id3_get by assumption. reflexivity.
Qed.

Lemma fold_id3 a i j c x : fold (id3 a i) 2 (ten [a * i; j; c]%nat x) 0 = ten [a; i; j; c] x.
Proof.
  transitivity (mk [a; i; j; c] (fun u => x (offset [a; i; j; c] u))).
  - unfold fold. change (remove_nth 2 (dims (id3 a i)) ++ remove_nth 0 (dims (ten [a * i; j; c]%nat x))) with [a; i; j; c].
    apply mk_ext. intros u Hu. apply in_range_inv4 in Hu. destruct Hu as (u0 & v & w & z & -> & Hu & Hv & Hw & Hz).
    rewrite <- join_id3 by assumption. unfold joined. reflexivity.
  - unfold mk, ten. f_equal. apply map_ext_in. intros n Hn. apply in_seq in Hn. f_equal. apply offset_unravel. lia.
Qed.

Lemma site2_dims kk P : open_mps P -> (S kk < length P)%nat -> exists a i m j c,
  dims (site P kk) = [a; i; m] /\ dims (site P (S kk)) = [m; j; c] /\ wf (site P kk) /\ wf (site P (S kk)) /\
  (0 < a /\ 0 < i /\ 0 < m /\ 0 < j /\ 0 < c)%nat.
Proof.
  intros (_ & HL) Hk. destruct (linked_split2 1 P 1 kk HL ltac:(lia) Hk) as (a & i & m & j & c & L1 & L2 & L3 & L4 & L5 & L6 & L7 & L8 & L9 & L10 & L11).
  exists a, i, m, j, c. repeat split; auto.
Qed.

Section Pair.
Variables (kk : nat) (P : mps) (a i m j c : nat).
Hypotheses (Ho : open_mps P) (Hd : pdims P = ds) (Hkk : (S kk < length P)%nat)
  (D1 : dims (site P kk) = [a; i; m]) (D2 : dims (site P (S kk)) = [m; j; c]) (Hpos : (0 < a /\ 0 < i /\ 0 < m /\ 0 < j /\ 0 < c)%nat).

Lemma emb2_eq x : emb2 kk P x = put2 kk P (id3 a i) (ten [a * i; j; c]%nat x).
Proof. unfold emb2, dim. rewrite D1, D2. reflexivity. Qed.

Lemma emb2_open x : open_mps (emb2 kk P x) /\ pdims (emb2 kk P x) = ds.
Proof.
  rewrite emb2_eq. apply (put2_fits ds kk P (id3 a i) _ a i m j c (a * i)%nat Ho Hd Hkk D1 D2); auto; [nia|apply wf_mk|apply wf_ten].
Qed.

Lemma emb2_canon k x : (k = kk \/ k = S kk) -> canonical_at k P -> canonical_at (S kk) (emb2 kk P x).
Proof.
  intros Hk (C1 & C2). rewrite emb2_eq. split; intros q Hq.
  - rewrite site_put2 by exact Hkk. destruct (Nat.eqb_spec q kk) as [->|Hne]; [apply id3_iso|]. destruct (Nat.eqb_spec q (S kk)); [lia|]. apply C1. lia.
  - rewrite put2_length in Hq by exact Hkk. rewrite site_put2 by exact Hkk. destruct (Nat.eqb_spec q kk); [lia|]. destruct (Nat.eqb_spec q (S kk)); [lia|]. apply C2. lia.
Qed.

Lemma emb2_weight k x : (k = kk \/ k = S kk) -> canonical_at k P ->
  weight ds (amp (emb2 kk P x)) = rsum (nprod [a; i; j; c]) (fun r => kmod2 (x r)).
Proof.
  intros Hk Hc. destruct (emb2_open x) as (O1 & P1). rewrite (canon_weight (S kk) _ O1 P1).
  - rewrite emb2_eq, site_put2 by exact Hkk. destruct (Nat.eqb_spec (S kk) kk); [lia|]. rewrite Nat.eqb_refl, frob2_ten.
    f_equal. cbn. ring.
  - rewrite emb2_eq, put2_length by exact Hkk. exact Hkk.
  - apply (emb2_canon k); assumption.
Qed.

(** Every pair of tensors is obtained in this way. *)
Lemma put2_emb A B q : (0 < q)%nat -> wf A -> dims A = [a; i; q] -> wf B -> dims B = [q; j; c] ->
  forall is, in_range ds is -> amp (put2 kk P A B) is =
    amp (emb2 kk P (fun r => let u := unravel [a; i; j; c] r in joined A B (nth 0 u 0%nat) (nth 1 u 0%nat) (nth 2 u 0%nat) (nth 3 u 0%nat))) is.
Proof.
  intros Hq HwA HdA HwB HdB is Hi. rewrite emb2_eq. unfold put2. destruct Hpos as (Ha & Hi0 & Hm & Hj & Hc).
  destruct (linked_split2 1 P 1 kk (proj2 Ho) ltac:(lia) Hkk) as (a' & i' & m' & j' & c' & L1 & L2 & L3 & L4 & L5 & L6 & L7 & L8 & L9 & L10 & L11).
  rewrite D1 in L4. injection L4 as <- <- <-. rewrite D2 in L8. injection L8 as <- <-.
  rewrite <- Hd, <- (put2_self kk P Hkk) in Hi. unfold put2 in Hi. rewrite pdims_app in Hi. apply SparseFacts.in_range_app in Hi.
  destruct Hi as (i1 & i2 & -> & H1 & H2). cbn [pdims map] in H2. apply in_range_cons_inv in H2. destruct H2 as (y & i3 & -> & Hy & H2).
  apply in_range_cons_inv in H2. destruct H2 as (z & i4 & -> & Hz & H2). unfold dim in Hy, Hz. rewrite D1 in Hy. rewrite D2 in Hz. cbn [nth] in Hy, Hz.
  assert (E1 : length i1 = length (firstn kk P)) by (rewrite (ScalarFacts.in_range_length _ _ H1); apply length_pdims).
  rewrite (amp_two_pair (firstn kk P) _ A B 1 a i j c q) by assumption.
  rewrite (amp_two_pair (firstn kk P) _ (id3 a i) _ 1 a i j c (a * i)%nat) by (try assumption; first [nia|apply wf_mk|apply wf_ten|reflexivity]).
  apply amp_two_ext. intros u w Hu Hw. rewrite join_id3 by assumption. cbv zeta. rewrite unravel_offset by (apply in_range_4; assumption). reflexivity.
Qed.

Lemma two_family f k k' (d : bool) : QAt k P f -> canonical_at k P -> moved d (length P) k k' -> kk = Nat.min k k' ->
  exists M, family (nprod [a; i; j; c]) (emb2 kk P) M /\ acts_as (apply_qform2 (sgn d) [a; i; j; c] f []) (nprod [a; i; j; c]) M.
Proof.
  intros HQ Hc Hm Ekk. pose proof HQ as (_ & _ & Hk & Hh & Hlive). pose proof (qat_qinv k P f HQ) as Hi.
  assert (Hkor : k = kk \/ k = S kk) by (destruct d; cbn [moved] in Hm; lia).
  set (p := firstn kk P) in *. set (q := skipn (S (S kk)) P) in *.
  assert (Elen : length p = kk) by (unfold p; rewrite firstn_length; lia).
  assert (HT : two_sites f (sgn d) = Ok (length p, length p + 1)%nat /\ qinv0 H f /\ length p = length p /\ length q = length q /\ (length p + 2 + length q = length H)%nat /\
  (forall m ra rb, (m < bond H (length p))%nat -> linked 1 p ra -> linked 1 p rb ->
     vten [1; 1; ra; rb]%nat (qf_left f (length p) m) (lenv_of (fun z w => QM p p (firstn (length p) H) 0 0 0 z w m))) /\
  (forall n ca cb, (n < bond H (length p + 2))%nat -> (0 < ca)%nat -> (0 < cb)%nat -> linked ca q 1 -> linked cb q 1 ->
     vten [ca; cb; 1; 1]%nat (qf_right f (length p + 1) n) (renv_of (fun z w => QM q q (skipn (length p + 2) H) z w n 0 0 0)))).
  { destruct d; cbn [moved sgn] in *.
    - destruct Hm as (-> & Hk'). assert (kk = k) by lia. unfold p, q. subst kk. replace (Nat.min k (S k)) with k in * by lia.
      rewrite (skipn_site (S k) P Hk') in Hi. apply (two_right_hyps H f _ _ _ _ _ _ Hi).
    - subst k. assert (kk = k') by lia. unfold p, q. subst kk. replace (Nat.min (S k') k') with k' in * by lia.
      rewrite (firstn_S_site k' P) in Hi by lia. apply (two_left_hyps H f _ _ _ _ _ _ Hi). }
  destruct HT as (T1 & T2 & T3 & T4 & T5 & T6 & T7).
  assert (Hsp : forall x, linked 1 (p ++ id3 a i :: ten [a * i; j; c]%nat x :: q) 1 /\ pdims (p ++ id3 a i :: ten [a * i; j; c]%nat x :: q) = ds /\
    emb2 kk P x = p ++ id3 a i :: ten [a * i; j; c]%nat x :: q).
  { intros x. destruct (emb2_open x) as ((_ & O1) & P1). rewrite emb2_eq in *. auto. }
  set (n := nprod [a; i; j; c]). set (d4 := [a; i; j; c]) in *.
  destruct (Hsp (fun _ => 0)) as (L0 & D0 & _).
  destruct (two_matrix_value H H_open H_sq f p q p q (sgn d) T1 T2 T3 T4 T5 T6 T7 _ _ _ _ L0 L0 ltac:(rewrite D0; symmetry; apply H_o) ltac:(rewrite D0; symmetry; apply H_i)) as (Mt & EM & _ & _).
  assert (HM : forall x y, sandwich (emb2 kk P x) H (emb2 kk P y) = sum n (fun r => sum n (fun c => kconj (x r) * elem Mt [r; c] * y c))).
  { intros x y. destruct (Hsp x) as (Lx & Dx & ->). destruct (Hsp y) as (Ly & Dy & ->).
    destruct (two_matrix_value H H_open H_sq f p q p q (sgn d) T1 T2 T3 T4 T5 T6 T7 _ _ _ _ Lx Ly ltac:(rewrite Dx; symmetry; apply H_o) ltac:(rewrite Dy; symmetry; apply H_i)) as (M' & EM' & _ & HV).
    rewrite <- HV. rewrite EM in EM'. apply Ok_inj' in EM'. subst M'. rewrite !fold_id3. unfold msandwich. cbn [dims ten]. apply sum_ext. intros r Hr. apply sum_ext. intros c' Hc'.
    rewrite !nth_ten by assumption. reflexivity. }
  exists (fun r c => elem Mt [r; c]). split.
  - split; [intros x; apply emb2_open|]. split; [intros x; apply (emb2_weight k x Hkor Hc)|exact HM].
  - intros v Hwv Hdv. destruct (checked_reshape_ok v d4 Hwv Hdv) as (E1 & E2). unfold apply_qform2. rewrite E1. cbn [bind]. rewrite E2.
    change (orthogonalize (ten d4 (fun i => get v [i])) []) with (ten d4 (fun i => get v [i])).
    set (x := fun i => get v [i]). destruct (Hsp x) as (Lx & Dx & Ex).
    assert (HS : forall y, exists w, apply_two_site_matrix f (ten d4 x) (sgn d) = Ok w /\ dims w = d4 /\ wf w /\ is_empty w = false /\
      sumcfg d4 (fun u => kconj (get (ten d4 y) u) * get w u) = sandwich (emb2 kk P y) H (emb2 kk P x)).
    { intros y. destruct (Hsp y) as (Ly & Dy & ->). rewrite Ex.
      destruct (apply_two_value H H_open H_sq f p q p q (sgn d) T1 T2 T3 T4 T5 T6 T7 _ _ _ _ Ly Lx ltac:(rewrite Dy; symmetry; apply H_o) ltac:(rewrite Dx; symmetry; apply H_i)) as (w & Ew & Hdw & Hv).
      pose proof (live_apply2 H H_open H_sq b Hb f p q p q (sgn d) _ _ _ _ w T1 T2 T3 T4 T5 T6 T7 Hlive Ly Lx ltac:(rewrite Dy; symmetry; apply H_o) ltac:(rewrite Dx; symmetry; apply H_i) Ew) as He.
      rewrite !fold_id3 in *. fold d4 in Ew, Hdw, Hv. change (dims (ten d4 y)) with d4 in Hdw, Hv.
      exists w. destruct Hdw as [Hdw|Hdw]; [congruence|]. split; [exact Ew|]. split; [exact Hdw|]. split; [|split; [exact He|]].
      - destruct (two_site_setup H H_open H_sq f p q p q _ _ _ _ T2 T3 T4 T5 T6 T7 Ly Lx ltac:(rewrite Dy; symmetry; apply H_o) ltac:(rewrite Dx; symmetry; apply H_i)) as
          (ra & rb & ca & cb & d1 & d2 & _ & DT & Hpos' & _ & _ & _ & _ & Ht1 & Ht2 & Hp1 & Hp2 & HL' & HR' & _).
        rewrite fold_id3 in DT. fold d4 in DT.
        destruct (apply_two_vten _ _ _ _ _ _ _ _ _ _ _ _ _ _ _ Ht1 Ht2 Hpos' HL' HR' _ DT) as (w' & Ew' & HV).
        unfold apply_two_site_matrix in Ew. rewrite T1 in Ew. cbn [bind] in Ew. rewrite Hp1, Hp2 in Ew.
        pose proof (eq_trans (eq_sym Ew) Ew') as E. apply Ok_inj' in E. subst w'. apply (vten_full _ _ _ HV He).
      - rewrite <- Hv. apply sumcfg_ext. intros u Hu. unfold elem. rewrite He. reflexivity. }
    destruct (HS x) as (w & Ew & Hdw & Hww & Hew & _). rewrite Ew. cbn [bind]. change (orthogonalize ?t []) with t.
    assert (Elw : length (data w) = n) by (unfold n; rewrite <- Hdw; exact Hww). rewrite Elw.
    exists (reshape w [n]). split; [reflexivity|]. split; [unfold wf; cbn [reshape dims data nprod fold_right]; rewrite Elw; lia|]. split; [reflexivity|].
    intros r Hr. change (get (reshape w [n]) [r]) with (nth (r + n * 0) (data w) 0). rewrite Nat.mul_0_r, Nat.add_0_r.
    destruct (HS (delta r)) as (w' & Ew' & _ & _ & _ & Hv). rewrite Ew in Ew'. apply Ok_inj' in Ew'. subst w'. rewrite HM in Hv.
    assert (Hl : sumcfg d4 (fun u => kconj (get (ten d4 (delta r)) u) * get w u) = nth r (data w) 0).
    { rewrite (sumcfg_ext d4 _ (fun u => kconj (delta r (offset d4 u)) * nth (offset d4 u) (data w) 0)).
      - rewrite <- (sum_offset d4 (fun q => kconj (delta r q) * nth q (data w) 0)).
        rewrite (sum_ext _ _ (fun q => delta r q * nth q (data w) 0)) by (intros q' _; unfold delta; destruct (Nat.eqb r q'); rewrite ?kconj_0, ?kconj_1; reflexivity).
        exact (sum_delta_l' n r (fun q => nth q (data w) 0) Hr).
      - intros u Hu. rewrite get_ten by exact Hu. unfold get. rewrite Hdw. reflexivity. }
    rewrite <- Hl, Hv.
    rewrite (sum_ext _ _ (fun q => delta r q * sum n (fun c => elem Mt [q; c] * x c))).
    + rewrite sum_delta_l' by exact Hr. reflexivity.
    + intros q' _. rewrite sum_mul_l. apply sum_ext. intros c' _. unfold delta. destruct (Nat.eqb r q'); rewrite ?kconj_0, ?kconj_1; ring.
Qed.
End Pair.
End Local.
