(** Distances, local optimality and one step of simplify_obc *)
From Coq Require Import Reals Lra Bool List Arith ZArith Lia Ring.
From Verif Require Import Scalar ScalarFacts RScal Tensor TensorFacts Spec MpsModel MpsFacts StateFacts MpoSpec CanonSpec CanonModel
  TruncFacts SplitFacts CanonFacts CanonSweep CanonNorm CanonProps CanonTwo SweepModel FormModel FormSpec LFormFacts LFormValue
  SimplifySpec SimplifyModel EckartYoung.
Import ListNotations.
Local Open Scope K_scope.

Section Facts.
Context {RS : RScal}.
Add Ring Kring : k_ring.

(** ** Inner products *)
Lemma inner_conj ds f g : kconj (inner ds f g) = inner ds g f.
Proof. unfold inner. rewrite sumcfg_conj. apply sumcfg_ext. intros is _. rewrite kconj_mul, kconj_inv. ring. Qed.

Lemma rinj_weight ds f : rinj (weight ds f) = inner ds f f.
Proof. unfold weight. apply kre_real. apply inner_conj. Qed.

Fixpoint rsumcfg (ds : list nat) (f : list nat -> R) : R :=
  match ds with [] => f [] | d :: ds' => rsum d (fun i => rsumcfg ds' (fun is => f (i :: is))) end.

Lemma rinj_rsumcfg ds f : rinj (rsumcfg ds f) = sumcfg ds (fun is => rinj (f is)).
Proof.
  revert f. induction ds as [|d ds IH]; intros f; [reflexivity|]. cbn. rewrite rinj_rsum. apply sum_ext. intros i _. apply IH.
Qed.

Lemma rsumcfg_nonneg ds f : (forall is, (0 <= f is)%R) -> (0 <= rsumcfg ds f)%R.
Proof. revert f. induction ds as [|d ds IH]; intros f H; cbn; [apply H|]. apply rsum_nonneg. intros i _. apply IH. intros. apply H. Qed.

Lemma weight_rsumcfg ds f : weight ds f = rsumcfg ds (fun is => kmod2 (f is)).
Proof.
  apply rinj_inj. rewrite rinj_weight, rinj_rsumcfg. unfold inner. apply sumcfg_ext. intros is _. rewrite kmod2_spec. reflexivity.
Qed.

Lemma weight_nonneg ds f : (0 <= weight ds f)%R.
Proof. rewrite weight_rsumcfg. apply rsumcfg_nonneg. intros. apply kmod2_nonneg. Qed.

Lemma rsumcfg_zero ds f : (forall is, (0 <= f is)%R) -> rsumcfg ds f = 0%R -> forall is, in_range ds is -> f is = 0%R.
Proof.
  revert f. induction ds as [|d ds IH]; intros f H H0 is Hi.
  - apply in_range_nil_inv in Hi. subst is. exact H0.
  - apply in_range_cons_inv in Hi. destruct Hi as (i & is' & -> & Hi & His). cbn in H0.
    apply (IH (fun is => f (i :: is))); [intros; apply H| |exact His].
    apply (rsum_zero_inv d (fun i => rsumcfg ds (fun is => f (i :: is)))); [|exact H0|exact Hi].
    intros k _. apply rsumcfg_nonneg. intros. apply H.
Qed.

Lemma weight_zero ds f : weight ds f = 0%R -> forall is, in_range ds is -> f is = 0.
Proof.
  rewrite weight_rsumcfg. intros H is Hi. apply kmod2_zero.
  apply (rsumcfg_zero ds (fun is => kmod2 (f is)) (fun _ => kmod2_nonneg _) H is Hi).
Qed.

Lemma dist2_expand ds f g : rinj (dist2 ds f g) = inner ds f f - inner ds f g - kconj (inner ds f g) + inner ds g g.
Proof.
  unfold dist2. rewrite rinj_weight, inner_conj. unfold inner.
  rewrite (sumcfg_ext ds _ (fun is => kconj (f is) * f is + ((0 - 1) * (kconj (f is) * g is) + ((0 - 1) * (kconj (g is) * f is) + kconj (g is) * g is)))).
  - rewrite !sumcfg_add, <- !sumcfg_mul_l. ring.
  - intros is _. rewrite kconj_sub. ring.
Qed.

Variables (ws : list K) (bras : list mps) (ds : list nat).
Hypothesis Hg : good_bras ws bras ds.

Lemma overlap_combo ket : pdims ket = ds -> overlap ws bras ket = inner ds (combo ws bras) (amp ket).
Proof.
  intros Hd. unfold overlap, inner, combo. rewrite Hd.
  rewrite (sum_ext _ _ (fun n => sumcfg ds (fun is => kconj (nth n ws 0) * (kconj (amp (nth n bras []) is) * amp ket is)))) by (intros; apply sumcfg_mul_l).
  rewrite <- sumcfg_sum_swap. apply sumcfg_ext. intros is _. rewrite sum_conj, sum_mul_r. apply sum_ext. intros n _. rewrite kconj_mul. ring.
Qed.

Lemma norm_combo : sum (length bras) (fun i => sum (length bras) (fun j =>
    kconj (nth i ws 0) * nth j ws 0 * inner ds (amp (nth i bras [])) (amp (nth j bras [])))) = rinj (weight ds (combo ws bras)).
Proof.
  rewrite rinj_weight. unfold inner.
  rewrite (sum_ext _ _ (fun i => sumcfg ds (fun is => sum (length bras) (fun j => kconj (nth i ws 0) * nth j ws 0 * (kconj (amp (nth i bras []) is) * amp (nth j bras []) is))))).
  2:{ intros i _. rewrite sumcfg_sum_swap. apply sum_ext. intros j _. apply sumcfg_mul_l. }
  rewrite <- sumcfg_sum_swap. apply sumcfg_ext. intros is _. unfold combo. rewrite sum_conj, sum_mul_r. apply sum_ext. intros i _.
  rewrite sum_mul_l. apply sum_ext. intros j _. rewrite kconj_mul. ring.
Qed.

(** ** The tensor at the centre *)
Definition dot (v T : tensor) : K := sumcfg (dims T) (fun x => get v x * get T x).

Lemma sumcfg_3 a i b F : sumcfg [a; i; b] F = sum a (fun x => sum i (fun y => sum b (fun z => F [x; y; z]))).
Proof. reflexivity. Qed.
Lemma sumcfg_4 a i j b F : sumcfg [a; i; j; b] F = sum a (fun x => sum i (fun y => sum j (fun w => sum b (fun z => F [x; y; w; z])))).
Proof. reflexivity. Qed.

(** [v] represents the scalar product as a function of the tensor at site k. *)
Definition repr1 (k : nat) (P : mps) (v : tensor) : Prop :=
  forall T, wf T -> dims T = dims (site P k) -> dot v T = overlap ws bras (replace_nth k T P).

Lemma fits_replace P k T : linked 1 P 1 -> (k < length P)%nat -> wf T -> dims T = dims (site P k) ->
  linked 1 (replace_nth k T P) 1 /\ pdims (replace_nth k T P) = pdims P.
Proof.
  intros HL Hk HT Hd. destruct (linked_split1 1 P 1 k HL Hk) as (m & d & c & H1 & H2 & H3 & H4 & H5 & H6). split.
  - apply (linked_replace 1 P 1 k T d); auto. + unfold dim. rewrite H3. cbn. rewrite Hd, H3. reflexivity.
  - unfold pdims. clear H1 H2 HL. revert k Hk Hd H3 H4. induction P as [|A P IH]; intros [|k] Hk Hd H3 H4; cbn in *; try lia.
    + f_equal. unfold dim. rewrite Hd. reflexivity.
    + f_equal. apply IH; auto. lia.
Qed.

Lemma tconj_tconj t : tconj (tconj t) = t.
Proof. destruct t as [d l]. unfold tconj. cbn. f_equal. rewrite map_map. induction l as [|x l IH]; cbn; [reflexivity|]. rewrite kconj_inv, IH. reflexivity. Qed.

Lemma replace_replace {A} k (x y : A) l : replace_nth k x (replace_nth k y l) = replace_nth k x l.
Proof. revert k. induction l as [|z l IH]; intros [|k]; cbn; try reflexivity. f_equal. apply IH. Qed.

Lemma site_replace_eq k T (P : mps) : (k < length P)%nat -> site (replace_nth k T P) k = T.
Proof. intros H. unfold site. apply nth_replace_nth_eq. exact H. Qed.
Lemma site_replace_neq k T (P : mps) j : j <> k -> site (replace_nth k T P) j = site P j.
Proof. intros H. unfold site. apply nth_replace_nth_neq. exact H. Qed.

(** The tensor at site k is the best one, all others given. *)
Definition opt (k : nat) (P : mps) : Prop := repr1 k P (tconj (site P k)).

Lemma opt_replace k P v : (k < length P)%nat -> dims v = dims (site P k) -> repr1 k P v -> opt k (replace_nth k (tconj v) P).
Proof.
  intros Hk Hd Hr T HT HdT. rewrite site_replace_eq in * by exact Hk. rewrite tconj_tconj, replace_replace. apply Hr; [exact HT|].
  rewrite HdT. exact Hd.
Qed.

Lemma dot_self t a i b : dims t = [a; i; b] -> wf t -> dot (tconj t) t = rinj (frob2 t).
Proof.
  intros Hd Hw. unfold dot. rewrite Hd, sumcfg_3, (frob2_3 t a i b Hd Hw). apply sum_ext; intros x _; apply sum_ext; intros y _; apply sum_ext; intros z _.
  rewrite get_tconj. reflexivity.
Qed.

Lemma site_dims P k : open_mps P -> (k < length P)%nat -> exists a i b, dims (site P k) = [a; i; b] /\ wf (site P k) /\ (0 < a)%nat /\ (0 < i)%nat /\ (0 < b)%nat.
Proof.
  intros (_ & HL) Hk. destruct (linked_split1 1 P 1 k HL Hk) as (m & d & c & H1 & H2 & H3 & H4 & H5 & H6).
  exists m, d, c. repeat split; auto. apply (linked_pos 1 (firstn k P) m); [exact H1|lia].
Qed.

Lemma opt_overlap k P : open_mps P -> (k < length P)%nat -> opt k P -> overlap ws bras P = rinj (frob2 (site P k)).
Proof.
  intros Ho Hk H. destruct (site_dims P k Ho Hk) as (a & i & b & Hd & Hw & _).
  rewrite <- (dot_self (site P k) a i b Hd Hw). rewrite H by (try exact Hw; reflexivity). rewrite replace_nth_site. reflexivity.
Qed.

Lemma open_replace P k T : open_mps P -> (k < length P)%nat -> wf T -> dims T = dims (site P k) ->
  open_mps (replace_nth k T P) /\ pdims (replace_nth k T P) = pdims P.
Proof.
  intros (Hn & HL) Hk HT Hd. destruct (fits_replace P k T HL Hk HT Hd) as (H1 & H2). split; [|exact H2]. split; [|exact H1].
  destruct P; [congruence|]. destruct k; discriminate.
Qed.

Lemma canonical_replace k P T : canonical_at k P -> canonical_at k (replace_nth k T P).
Proof.
  intros (H1 & H2). split; intros j Hj; rewrite site_replace_neq by lia; [apply H1; exact Hj|]. apply H2. rewrite length_replace_nth in Hj. exact Hj.
Qed.

Lemma canonical_inner k P : open_mps P -> pdims P = ds -> (k < length P)%nat -> canonical_at k P -> inner ds (amp P) (amp P) = rinj (frob2 (site P k)).
Proof. intros Ho <- Hk (H1 & H2). apply canonical_norm; assumption. Qed.

Lemma canonical_weight k P : open_mps P -> pdims P = ds -> (k < length P)%nat -> canonical_at k P -> weight ds (amp P) = frob2 (site P k).
Proof. intros Ho Hd Hk Hc. apply rinj_inj. rewrite rinj_weight. apply canonical_inner; assumption. Qed.

(** The distance when the tensor at the centre is the best one *)
Lemma opt_dist k P : open_mps P -> pdims P = ds -> (k < length P)%nat -> canonical_at k P -> opt k P ->
  dist2 ds (combo ws bras) (amp P) = (weight ds (combo ws bras) - frob2 (site P k))%R.
Proof.
  intros Ho Hd Hk Hc Hop. apply rinj_inj. rewrite dist2_expand, <- overlap_combo by exact Hd. rewrite (opt_overlap k P Ho Hk Hop).
  rewrite (canonical_inner k P Ho Hd Hk Hc), rinj_conj, rinj_sub, rinj_weight. ring.
Qed.

Lemma opt_best k P v T : open_mps P -> pdims P = ds -> (k < length P)%nat -> canonical_at k P ->
  repr1 k P v -> wf v -> dims v = dims (site P k) -> wf T -> dims T = dims (site P k) ->
  dist2 ds (combo ws bras) (amp (replace_nth k T P)) =
  (dist2 ds (combo ws bras) (amp (replace_nth k (tconj v) P)) + rsumcfg (dims T) (fun x => kmod2 (get T x - kconj (get v x))%K))%R.
Proof.
  intros Ho Hd Hk Hc Hr Hwv Hdv HwT HdT.
  destruct (site_dims P k Ho Hk) as (a & i & b & Hs & Hws & _). rewrite Hs in Hdv, HdT.
  assert (HwT' : wf (tconj v)) by (apply wf_tconj; exact Hwv).
  assert (HdT' : dims (tconj v) = dims (site P k)) by (cbn; congruence).
  destruct (open_replace P k T Ho Hk HwT ltac:(congruence)) as (O1 & D1).
  destruct (open_replace P k (tconj v) Ho Hk HwT' HdT') as (O2 & D2).
  apply rinj_inj. rewrite rinj_add, !dist2_expand, rinj_rsumcfg.
  rewrite <- !overlap_combo by congruence.
  rewrite <- (Hr T HwT ltac:(congruence)), <- (Hr (tconj v) HwT' HdT').
  rewrite (canonical_inner k (replace_nth k T P)), (canonical_inner k (replace_nth k (tconj v) P)) by
    (try assumption; try congruence; try (rewrite length_replace_nth; exact Hk); try (apply canonical_replace; exact Hc)).
  rewrite !site_replace_eq by exact Hk.
  rewrite <- (dot_self T a i b HdT HwT), <- (dot_self (tconj v) a i b Hdv HwT'). rewrite tconj_tconj.
  unfold dot. change (dims (tconj v)) with (dims v). rewrite HdT, Hdv. rewrite !sumcfg_conj.
  set (n := [a; i; b]).
  assert (E : sumcfg n (fun x => rinj (kmod2 (get T x - kconj (get v x)))) =
     sumcfg n (fun x => get (tconj T) x * get T x) - sumcfg n (fun x => get v x * get T x) - sumcfg n (fun x => kconj (get v x * get T x))
     + sumcfg n (fun x => get v x * get (tconj v) x)).
  { rewrite (sumcfg_ext n _ (fun x => get (tconj T) x * get T x + ((0 - 1) * (get v x * get T x) + ((0 - 1) * kconj (get v x * get T x) + get v x * get (tconj v) x)))).
    - rewrite !sumcfg_add, <- !sumcfg_mul_l. ring.
    - intros x _. rewrite kmod2_spec, kconj_sub, kconj_inv, !get_tconj, kconj_mul. ring. }
  rewrite E.
  assert (E2 : sumcfg n (fun x => kconj (get v x * get (tconj v) x)) = sumcfg n (fun x => get v x * get (tconj v) x)).
  { apply sumcfg_ext. intros x _. rewrite get_tconj, kconj_mul, kconj_inv. ring. }
  rewrite E2. ring.
Qed.
End Facts.
