(** * Propagation of environments in infinite states *)
From Coq Require Import Reals Lra Bool List Arith ZArith Lia Ring.
From Verif Require Import Scalar ScalarFacts RScal Tensor TensorFacts Spec SparseSpec MpsModel MpsFacts EnvFacts ExpectedFacts CanonModel CanonFacts CanonSweep DecompModel LFormFacts LFormValue TrotterRun ITebdModel ITebdSpec.
Import ListNotations.
Local Open Scope K_scope.

Section Facts.
Context {RS : RScal}.
Add Ring Kring : k_ring.

Definition oo (t : tensor) : option tensor := if is_empty t then None else Some t.
Lemma opel_oo t i j : opel (oo t) i j = op_of t i j.
Proof. unfold oo, op_of. destruct (is_empty t); reflexivity. Qed.

Lemma propagate_ok v A op a d b : dims v = [a; a] -> dims A = [a; d; b] -> wf A -> op_fits op d ->
  dims (propagate_right v A op) = [b; b] /\ wf (propagate_right v A op) /\
  forall z w, (z < b)%nat -> (w < b)%nat ->
    get (propagate_right v A op) [z; w] = sum a (fun x => sum a (fun y => get v [x; y] * E1 A A (oo op) x y z w)).
Proof.
  intros Hv HA Hw Hop. unfold propagate_right.
  set (F := fold v (rank v - 1) A 0).
  assert (HFd : dims F = [a; d; b]) by (unfold F, fold, rank; rewrite Hv, HA; reflexivity).
  assert (HFg : forall x i w, (x < a)%nat -> (i < d)%nat -> (w < b)%nat -> get F [x; i; w] = sum a (fun y => get v [x; y] * get A [y; i; w])).
  { intros x i w Hx Hi Hww. unfold F, fold, rank, dim. rewrite Hv, HA. cbn -[mk sum get]. rewrite get_mk by (apply in_range_3; assumption). reflexivity. }
  set (G := if is_empty op then F else foldin op (rank op - 1) F 1).
  assert (HG : dims G = [a; d; b] /\ wf G /\ forall x i w, (x < a)%nat -> (i < d)%nat -> (w < b)%nat ->
     get G [x; i; w] = sum d (fun j => opel (oo op) i j * sum a (fun y => get v [x; y] * get A [y; j; w]))).
  { unfold G. destruct (is_empty op) eqn:Eo.
    - split; [exact HFd|]. split; [apply wf_mk|]. intros x i w Hx Hi Hww. rewrite HFg by assumption.
      unfold oo. rewrite Eo. cbn [opel]. rewrite (sum_delta_l' d i (fun j => sum a (fun y => get v [x; y] * get A [y; j; w])) Hi). reflexivity.
    - destruct Hop as [Hop|Hop]; [congruence|]. split; [apply (dims_foldin_mid op F a d b Hop HFd)|]. split; [apply wf_mk|].
      intros x i w Hx Hi Hww. rewrite (get_foldin_mid op F a d b x i w Hop HFd) by assumption. apply sum_ext. intros j Hj.
      rewrite HFg by assumption. unfold oo. rewrite Eo. reflexivity. }
  destruct HG as (HGd & HGw & HGg). cbv zeta. clearbody G. unfold dim. rewrite HGd. cbn [nth].
  unfold foldc, fold, rank, dim. cbn [dims reshape tconj]. cbn -[mk sum get].
  split; [reflexivity|]. split; [apply wf_mk|]. intros z w Hz Hww.
  rewrite get_mk by (apply in_range_2; assumption). cbn [firstn skipn insert_nth app].
  transitivity (sum (a * d) (fun p => kconj (get (reshape A [a * d; b]%nat) [p; z]) * get (reshape G [a * d; b]%nat) [p; w])).
  { apply sum_ext. intros p Hp. rewrite get_tconj. reflexivity. }
  rewrite sum_merge, sum_swap.
  transitivity (sum a (fun x => sum d (fun i => kconj (get A [x; i; z]) * sum d (fun j => opel (oo op) i j * sum a (fun y => get v [x; y] * get A [y; j; w]))))).
  { apply sum_ext. intros x Hx. apply sum_ext. intros i Hi.
    assert (EA : get (reshape A [a * d; b]%nat) [(x + a * i)%nat; z] = get A [x; i; z]).
    { unfold get. rewrite HA. cbn [dims reshape data offset]. f_equal. nia. }
    assert (EG : get (reshape G [a * d; b]%nat) [(x + a * i)%nat; w] = get G [x; i; w]).
    { unfold get. rewrite HGd. cbn [dims reshape data offset]. f_equal. nia. }
    rewrite HGg in EG by assumption. first [rewrite EA, EG|idtac]. reflexivity. }
  apply sum_ext. intros x Hx.
  transitivity (sum d (fun i => sum a (fun y => get v [x; y] * sum d (fun j => kconj (get A [x; i; z]) * opel (oo op) i j * get A [y; j; w])))).
  { apply sum_ext. intros i Hi.
    transitivity (kconj (get A [x; i; z]) * sum a (fun y => get v [x; y] * sum d (fun j => opel (oo op) i j * get A [y; j; w]))).
    - f_equal. transitivity (sum d (fun j => sum a (fun y => get v [x; y] * (opel (oo op) i j * get A [y; j; w])))).
      + apply sum_ext. intros j Hj. rewrite sum_mul_l. apply sum_ext. intros. ring.
      + rewrite sum_swap. apply sum_ext. intros y Hy. rewrite <- sum_mul_l. reflexivity.
    - rewrite sum_mul_l. apply sum_ext. intros y Hy. rewrite !sum_mul_l. rewrite <- sum_mul_l. rewrite !sum_mul_l. apply sum_ext. intros. ring. }
  rewrite sum_swap. apply sum_ext. intros y Hy. rewrite <- sum_mul_l. unfold E1, dim. rewrite HA. cbn [nth]. reflexivity.
Qed.

Lemma id_op_app i1 i2 j1 j2 : length j1 = length i1 -> id_op (i1 ++ i2) (j1 ++ j2) = id_op i1 j1 * id_op i2 j2.
Proof.
  revert j1. induction i1 as [|i i1 IH]; intros [|j j1] H; cbn [length] in H; try discriminate; cbn [app id_op]; [ring|].
  rewrite IH by lia. ring.
Qed.

Lemma in_range_inv3 a b c x : in_range [a; b; c] x -> exists i j k, x = [i; j; k] /\ (i < a)%nat /\ (j < b)%nat /\ (k < c)%nat.
Proof.
  intros H. apply in_range_cons_inv in H. destruct H as (i & x1 & -> & Hi & H). apply in_range_cons_inv in H. destruct H as (j & x2 & -> & Hj & H).
  apply in_range_cons_inv in H. destruct H as (k & x3 & -> & Hk & H). apply in_range_nil_inv in H. subst x3. exists i, j, k. auto.
Qed.

(** Two neighbouring sites joined *)
Definition join2 (A B : tensor) : tensor :=
  reshape (fold A (rank A - 1) B 0) [dim A 0; (dim A 1 * dim B 1)%nat; dim B 2].

Lemma join2_ok A B a i b j c : dims A = [a; i; b] -> dims B = [b; j; c] ->
  dims (join2 A B) = [a; i * j; c]%nat /\ wf (join2 A B) /\
  forall x p q z, (x < a)%nat -> (p < i)%nat -> (q < j)%nat -> (z < c)%nat ->
    get (join2 A B) [x; (p + i * q)%nat; z] = chain [A; B] [p; q] x z.
Proof.
  intros HA HB. unfold join2, dim. rewrite HA, HB. cbn [nth].
  assert (Hd : dims (fold A (rank A - 1) B 0) = [a; i; j; c]) by (unfold fold, rank; rewrite HA, HB; reflexivity).
  assert (Hw : wf (fold A (rank A - 1) B 0)) by apply wf_mk.
  split; [reflexivity|]. split.
  { apply wf_reshape; [exact Hw|]. rewrite Hd. cbn [nprod fold_right]. lia. }
  intros x p q z Hx Hp Hq Hz.
  transitivity (get (fold A (rank A - 1) B 0) [x; p; q; z]).
  { unfold get. rewrite Hd. cbn [dims reshape data offset]. f_equal. nia. }
  unfold fold, rank, dim. rewrite HA, HB. cbn -[mk sum get chain]. rewrite get_mk by (apply in_range_4; assumption).
  cbn [chain]. unfold dim. rewrite HA, HB. cbn [nth]. cbn -[sum get]. apply sum_ext. intros y Hy. rewrite sum_delta_r by exact Hz. reflexivity.
Qed.

Lemma E1_join A B a i b j c op x y z w : dims A = [a; i; b] -> dims B = [b; j; c] ->
  (x < a)%nat -> (y < a)%nat -> (z < c)%nat -> (w < c)%nat ->
  E1 (join2 A B) (join2 A B) (oo op) x y z w =
  sumcfg [i; j] (fun is => sumcfg [i; j] (fun js => kconj (chain [A; B] is x z) *
    op_of op (nth 0 is 0 + i * nth 1 is 0)%nat (nth 0 js 0 + i * nth 1 js 0)%nat * chain [A; B] js y w)).
Proof.
  intros HA HB Hx Hy Hz Hw. destruct (join2_ok A B a i b j c HA HB) as (Hd & _ & Hg).
  unfold E1. unfold dim at 1 2. rewrite Hd. cbn [nth]. rewrite sum_merge, sum_swap. cbn [sumcfg].
  apply sum_ext. intros p Hp. apply sum_ext. intros q Hq.
  rewrite sum_merge, sum_swap. apply sum_ext. intros r Hr. apply sum_ext. intros t Ht. cbn [nth].
  rewrite !Hg by assumption. rewrite opel_oo. reflexivity.
Qed.

(** Propagation through the tensors of a list *)
Fixpoint prun (v : tensor) (p : mps) (ops : list tensor) : tensor :=
  match p, ops with A :: p, o :: ops => prun (propagate_right v A o) p ops | _, _ => v end.

Fixpoint pfits (p : mps) (ops : list tensor) : Prop :=
  match p, ops with [], [] => True | A :: p, o :: ops => op_fits o (dim A 1) /\ pfits p ops | _, _ => False end.

Lemma op_ok_oo' o d : op_fits o d -> op_ok (oo o) d d.
Proof. unfold oo. intros [H|[H _]]; [rewrite H; reflexivity|]. destruct (is_empty o); [reflexivity|exact H]. Qed.

Lemma prun_ok ops : forall p v l r, dims v = [l; l] -> wf v -> linked l p r -> pfits p ops ->
  dims (prun v p ops) = [r; r] /\ wf (prun v p ops) /\
  forall z w, (z < r)%nat -> (w < r)%nat ->
    get (prun v p ops) [z; w] = sum l (fun x => sum l (fun y => get v [x; y] * TM p p (map oo ops) x y z w)).
Proof.
  induction ops as [|o ops IH]; intros [|A p] v l r Hv Hw Hl Hf; cbn [pfits] in Hf; try contradiction.
  - cbn [linked] in Hl. subst r. split; [exact Hv|]. split; [exact Hw|]. cbn [prun map]. intros z w Hz Hww.
    transitivity (sum l (fun x => get v [x; w] * delta x z)).
    + rewrite (sum_delta_r l z (fun x => get v [x; w])) by exact Hz. reflexivity.
    + apply sum_ext. intros x Hx. unfold TM. cbn [pdims map sumcfg chain prodop].
      transitivity (sum l (fun y => (get v [x; y] * kconj (delta x z)) * delta y w)).
      * rewrite (sum_delta_r l w (fun y => get v [x; y] * kconj (delta x z))) by exact Hww.
        unfold delta. destruct (Nat.eqb x z); rewrite ?kconj_1, ?kconj_0; reflexivity.
      * apply sum_ext. intros y Hy. ring.
  - destruct Hf as [Ho Hf]. cbn [linked] in Hl. destruct Hl as (d & c & HAd & HAw & Hd & Hc & Hl).
    unfold dim in Ho. rewrite HAd in Ho. cbn [nth] in Ho. cbn [prun].
    destruct (propagate_ok v A o l d c Hv HAd HAw Ho) as (Hd1 & Hw1 & Hg1).
    destruct (IH p _ c r Hd1 Hw1 Hl Hf) as (Hd2 & Hw2 & Hg2).
    split; [exact Hd2|]. split; [exact Hw2|]. intros z w Hz Hww. rewrite Hg2 by assumption.
    assert (L1 : linked l [A] c) by (exists d, c; repeat split; auto).
    assert (HT : forall x y, (x < l)%nat -> (y < l)%nat ->
      TM (A :: p) (A :: p) (map oo (o :: ops)) x y z w = sum c (fun e => sum c (fun f => E1 A A (oo o) x y e f * TM p p (map oo ops) e f z w))).
    { intros x y Hx Hy. change (A :: p) with ([A] ++ p). change (map oo (o :: ops)) with ([oo o] ++ map oo ops).
      rewrite (TM_app l l [A] [A] [oo o] c c p p _ r r x y z w L1 L1 Hl Hl); [|split; [unfold dim; rewrite HAd; apply op_ok_oo'; exact Ho|exact I]|exact Hx|exact Hy].
      apply sum_ext. intros e He. apply sum_ext. intros f Hff. f_equal. apply (TM_single A A (oo o) x y e f _ _ _ _ _ _ HAd HAd He Hff). }
    transitivity (sum c (fun e => sum c (fun f => sum l (fun x => sum l (fun y =>
      get v [x; y] * (E1 A A (oo o) x y e f * TM p p (map oo ops) e f z w)))))).
    { apply sum_ext. intros e He. apply sum_ext. intros f Hff. rewrite Hg1 by assumption. rewrite sum_mul_r. apply sum_ext. intros x Hx.
      rewrite sum_mul_r. apply sum_ext. intros y Hy. ring. }
    transitivity (sum l (fun x => sum l (fun y => sum c (fun e => sum c (fun f =>
      get v [x; y] * (E1 A A (oo o) x y e f * TM p p (map oo ops) e f z w)))))).
    + transitivity (sum c (fun e => sum l (fun x => sum c (fun f => sum l (fun y =>
        get v [x; y] * (E1 A A (oo o) x y e f * TM p p (map oo ops) e f z w)))))).
      { apply sum_ext. intros e He. apply sum_swap. }
      rewrite sum_swap. apply sum_ext. intros x Hx.
      transitivity (sum c (fun e => sum l (fun y => sum c (fun f =>
        get v [x; y] * (E1 A A (oo o) x y e f * TM p p (map oo ops) e f z w))))).
      { apply sum_ext. intros e He. apply sum_swap. }
      apply sum_swap.
    + apply sum_ext. intros x Hx. apply sum_ext. intros y Hy. rewrite HT by assumption. rewrite sum_mul_l. apply sum_ext. intros e He.
      rewrite sum_mul_l. reflexivity.
Qed.

(** ** Division *)
Lemma kinv_l y : y <> 0 -> kinv y * y = 1.
Proof.
  intros Hy. unfold kinv. transitivity (rinj (/ kmod2 y) * (kconj y * y)); [ring|]. rewrite <- kmod2_spec, <- rinj_mul.
  rewrite Rinv_l; [apply rinj_1|]. intros H. apply Hy. apply kmod2_zero. exact H.
Qed.

Lemma kdiv_inv a b x : kdiv a b = Ok x -> b <> 0 /\ x * b = a.
Proof.
  unfold kdiv. destruct (keqb_spec b 0) as [|Hb]; [discriminate|]. intros H. apply Ok_inj' in H. subst x. split; [exact Hb|].
  transitivity (a * (kinv b * b)); [ring|]. rewrite kinv_l by exact Hb. ring.
Qed.

Lemma kdiv_ok a b : b <> 0 -> exists x, kdiv a b = Ok x.
Proof. intros Hb. unfold kdiv. destruct (keqb_spec b 0); [contradiction|]. eauto. Qed.

Lemma kmul_nonzero a b : a <> 0 -> b <> 0 -> a * b <> 0.
Proof.
  intros Ha Hb H. apply Ha. transitivity (a * (kinv b * b)); [rewrite kinv_l by exact Hb; ring|].
  transitivity (kinv b * (a * b)); [ring|]. rewrite H. ring.
Qed.

Lemma kpow_nonzero e m : (0 < e)%R -> kpow (rinj e) m <> 0.
Proof.
  intros He. assert (Hr : rinj e <> 0). { intros H. rewrite <- rinj_0 in H. apply rinj_inj in H. lra. }
  assert (H1 : (1 : K) <> 0). { intros H. apply Hr. transitivity (1 * rinj e); [ring|]. rewrite H. ring. }
  induction m as [|m IH]; [exact H1|]. cbn [kpow]. apply kmul_nonzero; assumption.
Qed.

Lemma pair_op_delta k ds is js : in_range ds is -> in_range ds js -> (k + 1 < length ds)%nat -> pair_op k ds delta is js = id_op is js.
Proof.
  revert ds is js. induction k as [|k IH]; intros ds is js Hi Hj Hk.
  - destruct ds as [|d [|d' ds]]; cbn [length] in Hk; try lia.
    apply in_range_cons_inv in Hi. destruct Hi as (i & is1 & -> & Hi & His). apply in_range_cons_inv in His. destruct His as (i' & is2 & -> & Hi' & His).
    apply in_range_cons_inv in Hj. destruct Hj as (j & js1 & -> & Hj & Hjs). apply in_range_cons_inv in Hjs. destruct Hjs as (j' & js2 & -> & Hj' & Hjs).
    cbn [pair_op id_op]. assert (Edd : delta (i + d * i')%nat (j + d * j')%nat = delta i j * delta i' j'); [|rewrite Edd; ring].
    unfold delta. destruct (Nat.eqb_spec i j) as [->|Hne].
    + destruct (Nat.eqb_spec i' j') as [->|Hne']; [rewrite Nat.eqb_refl; ring|]. destruct (Nat.eqb_spec (j + d * i') (j + d * j')); [nia|ring].
    + destruct (Nat.eqb_spec (i + d * i') (j + d * j')) as [He|]; [|ring]. exfalso. apply Hne.
      assert (Hm : ((i + d * i') mod d = (j + d * j') mod d)%nat) by (rewrite He; reflexivity).
      rewrite !(Nat.mul_comm d), !Nat.mod_add, !Nat.mod_small in Hm by lia. exact Hm.
  - destruct ds as [|d ds]; cbn [length] in Hk; try lia.
    apply in_range_cons_inv in Hi. destruct Hi as (i & is1 & -> & Hi & His).
    apply in_range_cons_inv in Hj. destruct Hj as (j & js1 & -> & Hj & Hjs). cbn [pair_op id_op]. rewrite IH by (auto; lia). reflexivity.
Qed.

Lemma odd_of_nat k : Z.odd (Z.of_nat k) = Nat.odd k.
Proof. rewrite <- Nat.negb_even, <- Z.negb_even. f_equal.
  induction k as [|k IH]; [reflexivity|]. rewrite Nat2Z.inj_succ, Z.even_succ, Nat.even_succ, <- Z.negb_even, <- Nat.negb_even, IH. reflexivity. Qed.

Lemma odd_S k : Nat.odd (S k) = negb (Nat.odd k).
Proof. rewrite Nat.odd_succ, <- Nat.negb_odd. reflexivity. Qed.

Lemma repeat_S_app {A} (x : A) n : repeat x (S n) = repeat x n ++ [x].
Proof. rewrite <- repeat_cons. reflexivity. Qed.

Lemma double_half k : (2 * (k / 2 + 1))%nat = if Nat.odd k then S k else S (S k).
Proof.
  destruct (Nat.odd k) eqn:Ek.
  - apply Nat.odd_spec in Ek. destruct Ek as [q ->]. replace (2 * q + 1)%nat with (1 + q * 2)%nat by lia. rewrite Nat.div_add by lia. cbn [Nat.div Nat.divmod fst]. lia.
  - assert (He : Nat.even k = true) by (rewrite <- Nat.negb_odd, Ek; reflexivity). apply Nat.even_spec in He. destruct He as [q ->].
    replace (2 * q)%nat with (q * 2)%nat by lia. rewrite Nat.div_mul by lia. lia.
Qed.

Fixpoint seqr {A} (f : nat -> result A) (s n : nat) : result (list A) :=
  match n with O => Ok [] | S n => bind (f s) (fun x => bind (seqr f (S s) n) (fun r => Ok (x :: r))) end.

Lemma seqr_ok {A} (f : nat -> result A) n : forall s r, seqr f s n = Ok r -> length r = n /\ forall k d, (k < n)%nat -> f (s + k)%nat = Ok (nth k r d).
Proof.
  induction n as [|n IH]; intros s r H; cbn [seqr] in H.
  - apply Ok_inj' in H. subst r. split; [reflexivity|]. intros k d Hk. lia.
  - destruct (f s) as [x|] eqn:Ex; [|discriminate]. cbn [bind] in H. destruct (seqr f (S s) n) as [l|] eqn:El; [|discriminate]. cbn [bind] in H.
    apply Ok_inj' in H. subst r. destruct (IH _ _ El) as [H1 H2]. split; [cbn [length]; lia|]. intros [|k] d Hk.
    + rewrite Nat.add_0_r. exact Ex.
    + replace (s + S k)%nat with (S s + k)%nat by lia. apply H2. lia.
Qed.

Lemma seqr_total {A} (f : nat -> result A) n : forall s, (forall k, (k < n)%nat -> exists x, f (s + k)%nat = Ok x) -> exists r, seqr f s n = Ok r.
Proof.
  induction n as [|n IH]; intros s H; cbn [seqr]; [eauto|]. destruct (H 0%nat) as [x Hx]; [lia|]. rewrite Nat.add_0_r in Hx. rewrite Hx. cbn [bind].
  destruct (IH (S s)) as [r Hr]; [|rewrite Hr; cbn [bind]; eauto]. intros k Hk. destruct (H (S k)) as [y Hy]; [lia|]. exists y. rewrite <- Hy. f_equal. lia.
Qed.

(** ** The chain of sites *)
Lemma map_sub t s q : map (fun k => (k - t)%nat) (seq (t + s) q) = seq s q.
Proof.
  revert s. induction q as [|q IH]; intros s; [reflexivity|]. cbn [seq map]. f_equal; [lia|]. replace (S (t + s)) with (t + S s)%nat by lia. apply IH.
Qed.

Section Chain.
Variables (psi : itebd) (D E dA dB : nat).
Hypothesis HD : (0 < D)%nat.
Hypothesis HE : (0 < E)%nat.
Hypothesis HdA : (0 < dA)%nat.
Hypothesis HdB : (0 < dB)%nat.
Hypothesis HlA : length (ilA psi) = E.
Hypothesis HlB : length (ilB psi) = D.
Hypothesis HA : dims (iAlA psi) = [D; dA; E].
Hypothesis HAw : wf (iAlA psi).
Hypothesis HB : dims (iBlB psi) = [E; dB; D].
Hypothesis HBw : wf (iBlB psi).

Definition site (k : nat) : tensor := combined_matrix psi (Z.of_nat k).
Definition bond (k : nat) : nat := if Nat.odd k then E else D.
Definition phys (k : nat) : nat := if Nat.odd k then dB else dA.
Definition sites (s n : nat) : mps := map site (seq s n).



Lemma site_ok k : dims (site k) = [bond k; phys k; bond (S k)] /\ wf (site k) /\ (0 < phys k)%nat /\ (0 < bond k)%nat.
Proof.
  unfold site, combined_matrix, bond, phys. rewrite odd_of_nat, odd_S. destruct (Nat.odd k); cbn [negb]; auto.
Qed.

Lemma bond_pos k : (0 < bond k)%nat.
Proof. apply site_ok. Qed.

Lemma sites_linked s n : linked (bond s) (sites s n) (bond (s + n)).
Proof.
  revert s. induction n as [|n IH]; intros s; cbn [sites seq map linked].
  - rewrite Nat.add_0_r. reflexivity.
  - destruct (site_ok s) as (H1 & H2 & H3 & _). exists (phys s), (bond (S s)). repeat split; auto using bond_pos.
    replace (s + S n)%nat with (S s + n)%nat by lia. apply IH.
Qed.

Lemma sites_app s n m : sites s (n + m) = sites s n ++ sites (s + n) m.
Proof. unfold sites. rewrite seq_app, map_app. reflexivity. Qed.

Lemma sites_length s n : length (sites s n) = n.
Proof. unfold sites. rewrite map_length, seq_length. reflexivity. Qed.

Lemma pdims_sites s n : pdims (sites s n) = map phys (seq s n).
Proof.
  unfold pdims, sites. rewrite map_map. apply map_ext. intros k. destruct (site_ok k) as (H1 & _). unfold dim. rewrite H1. reflexivity.
Qed.

(** *** Propagation through several sites *)
Fixpoint vrun (v : tensor) (s : nat) (ops : list tensor) : tensor :=
  match ops with [] => v | o :: ops => vrun (propagate_right v (site s) o) (S s) ops end.

Fixpoint fits (s : nat) (ops : list tensor) : Prop :=
  match ops with [] => True | o :: ops => op_fits o (phys s) /\ fits (S s) ops end.

Lemma op_ok_oo o d : op_fits o d -> op_ok (oo o) d d.
Proof. unfold oo. intros [H|[H _]]; [rewrite H; reflexivity|]. destruct (is_empty o); [reflexivity|exact H]. Qed.

Lemma fits_ok s ops : fits s ops -> ops_ok (sites s (length ops)) (sites s (length ops)) (map oo ops).
Proof.
  revert s. induction ops as [|o ops IH]; intros s H; [exact I|]. destruct H as [H1 H2].
  cbn [length sites seq map ops_ok]. split; [|apply IH; exact H2].
  destruct (site_ok s) as (Hd & _). unfold dim. rewrite Hd. cbn [nth]. apply op_ok_oo. exact H1.
Qed.

Lemma vrun_ok ops : forall v s, dims v = [bond s; bond s] -> wf v -> fits s ops ->
  dims (vrun v s ops) = [bond (s + length ops); bond (s + length ops)] /\ wf (vrun v s ops) /\
  forall z w, (z < bond (s + length ops))%nat -> (w < bond (s + length ops))%nat ->
    get (vrun v s ops) [z; w] = sum (bond s) (fun x => sum (bond s) (fun y => get v [x; y] *
      TM (sites s (length ops)) (sites s (length ops)) (map oo ops) x y z w)).
Proof.
  induction ops as [|o ops IH]; intros v s Hv Hw Hf.
  - cbn [vrun length map]. rewrite Nat.add_0_r. split; [exact Hv|]. split; [exact Hw|]. intros z w Hz Hww.
    transitivity (sum (bond s) (fun x => get v [x; w] * delta x z)).
    + rewrite (sum_delta_r (bond s) z (fun x => get v [x; w])) by exact Hz. reflexivity.
    + apply sum_ext. intros x Hx. unfold TM. cbn [sites seq map pdims sumcfg chain prodop].
      transitivity (sum (bond s) (fun y => (get v [x; y] * kconj (delta x z)) * delta y w)).
      * rewrite (sum_delta_r (bond s) w (fun y => get v [x; y] * kconj (delta x z))) by exact Hww.
        unfold delta. destruct (Nat.eqb x z); rewrite ?kconj_1, ?kconj_0; reflexivity.
      * apply sum_ext. intros y Hy. ring.
  - destruct Hf as [Ho Hf]. cbn [vrun]. destruct (site_ok s) as (Hsd & Hsw & Hp & _).
    destruct (propagate_ok v (site s) o (bond s) (phys s) (bond (S s)) Hv Hsd Hsw Ho) as (Hd1 & Hw1 & Hg1).
    destruct (IH _ (S s) Hd1 Hw1 Hf) as (Hd2 & Hw2 & Hg2).
    replace (s + length (o :: ops))%nat with (S s + length ops)%nat by (cbn [length]; lia).
    split; [exact Hd2|]. split; [exact Hw2|]. intros z w Hz Hww. rewrite Hg2 by assumption.
    set (n := length ops) in *.
    assert (HT : forall x y, (x < bond s)%nat -> (y < bond s)%nat ->
      TM (sites s (length (o :: ops))) (sites s (length (o :: ops))) (map oo (o :: ops)) x y z w =
      sum (bond (S s)) (fun c => sum (bond (S s)) (fun d => E1 (site s) (site s) (oo o) x y c d * TM (sites (S s) n) (sites (S s) n) (map oo ops) c d z w))).
    { intros x y Hx Hy. change (length (o :: ops)) with (1 + n)%nat. rewrite sites_app. replace (s + 1)%nat with (S s) by lia.
      change (map oo (o :: ops)) with ([oo o] ++ map oo ops).
      assert (L1 : linked (bond s) (sites s 1) (bond (S s))) by (replace (S s) with (s + 1)%nat by lia; apply sites_linked).
      rewrite (TM_app (bond s) (bond s) (sites s 1) (sites s 1) [oo o] (bond (S s)) (bond (S s)) _ _ _ (bond (S s + n)) (bond (S s + n)) x y z w L1 L1
        (sites_linked _ _) (sites_linked _ _)); [|apply (fits_ok s [o]); split; [exact Ho|exact I]|exact Hx|exact Hy].
      apply sum_ext. intros c Hc. apply sum_ext. intros d Hd. f_equal.
      apply (TM_single (site s) (site s) (oo o) x y c d _ _ _ _ _ _ Hsd Hsd Hc Hd). }
    transitivity (sum (bond (S s)) (fun c => sum (bond (S s)) (fun d => sum (bond s) (fun x => sum (bond s) (fun y =>
      get v [x; y] * (E1 (site s) (site s) (oo o) x y c d * TM (sites (S s) n) (sites (S s) n) (map oo ops) c d z w)))))).
    { apply sum_ext. intros c Hc. apply sum_ext. intros d Hd. rewrite Hg1 by assumption. rewrite sum_mul_r. apply sum_ext. intros x Hx.
      rewrite sum_mul_r. apply sum_ext. intros y Hy. ring. }
    transitivity (sum (bond s) (fun x => sum (bond s) (fun y => sum (bond (S s)) (fun c => sum (bond (S s)) (fun d =>
      get v [x; y] * (E1 (site s) (site s) (oo o) x y c d * TM (sites (S s) n) (sites (S s) n) (map oo ops) c d z w)))))).
    + transitivity (sum (bond (S s)) (fun c => sum (bond s) (fun x => sum (bond (S s)) (fun d => sum (bond s) (fun y =>
        get v [x; y] * (E1 (site s) (site s) (oo o) x y c d * TM (sites (S s) n) (sites (S s) n) (map oo ops) c d z w)))))).
      { apply sum_ext. intros c Hc. apply sum_swap. }
      rewrite sum_swap. apply sum_ext. intros x Hx.
      transitivity (sum (bond (S s)) (fun c => sum (bond s) (fun y => sum (bond (S s)) (fun d =>
        get v [x; y] * (E1 (site s) (site s) (oo o) x y c d * TM (sites (S s) n) (sites (S s) n) (map oo ops) c d z w))))).
      { apply sum_ext. intros c Hc. apply sum_swap. }
      apply sum_swap.
    + apply sum_ext. intros x Hx. apply sum_ext. intros y Hy. rewrite HT by assumption. rewrite sum_mul_l. apply sum_ext. intros c Hc.
      rewrite sum_mul_l. reflexivity.
Qed.

(** Weight of the left boundary *)
Definition lw (x : nat) : K := rinj (nth x (ilB psi) 0 * nth x (ilB psi) 0)%R.

Lemma left_boundary_ok : dims (left_boundary psi 0) = [bond 0; bond 0] /\ wf (left_boundary psi 0) /\
  forall x y, (x < D)%nat -> (y < D)%nat -> get (left_boundary psi 0) [x; y] = delta x y * lw x.
Proof.
  unfold left_boundary, left_vector. cbn [Z.odd]. rewrite HlB. split; [reflexivity|]. split; [apply wf_mk|].
  intros x y Hx Hy. rewrite get_mk by (apply in_range_2; assumption). cbn [nth]. unfold delta, lw. destruct (Nat.eqb x y); ring.
Qed.

(** The trace of the environment of n sites *)
Definition secT (n : nat) (ops : list (option tensor)) : K :=
  sum D (fun x => sum (bond n) (fun z => lw x * TM (sites 0 n) (sites 0 n) ops x x z z)).

Lemma mtrace_vrun ops : fits 0 ops -> mtrace (vrun (left_boundary psi 0) 0 ops) = secT (length ops) (map oo ops).
Proof.
  intros Hf. destruct left_boundary_ok as (Hd & Hw & Hg). destruct (vrun_ok ops _ 0 Hd Hw Hf) as (Hd1 & _ & Hg1).
  cbn [Nat.add] in *. unfold mtrace, dim. rewrite Hd1. cbn [nth]. unfold secT. rewrite sum_swap. apply sum_ext. intros z Hz.
  rewrite Hg1 by assumption. change (bond 0) with D. apply sum_ext. intros x Hx.
  transitivity (sum D (fun y => delta x y * (lw x * TM (sites 0 (length ops)) (sites 0 (length ops)) (map oo ops) x y z z))).
  - apply sum_ext. intros y Hy. rewrite Hg by assumption. ring.
  - rewrite (sum_delta_l' D x (fun y => lw x * TM (sites 0 (length ops)) (sites 0 (length ops)) (map oo ops) x y z z)) by exact Hx. reflexivity.
Qed.


(** *** Sections of the infinite chain *)
Hypothesis HiA : dim (iA psi) 1 = dA.
Hypothesis HiB : dim (iB psi) 1 = dB.

Lemma sites_shift2 s n : sites (2 + s) n = sites s n.
Proof.
  unfold sites. revert s. induction n as [|n IH]; intros s; [reflexivity|]. cbn [seq map]. f_equal; [|apply (IH (S s))].
  unfold site, combined_matrix. rewrite !odd_of_nat. cbn [Nat.add]. rewrite !odd_S, negb_involutive. reflexivity.
Qed.

Lemma sites_shift m s n : sites (2 * m + s) n = sites s n.
Proof.
  induction m as [|m IH]; [reflexivity|]. replace (2 * S m + s)%nat with (2 + (2 * m + s))%nat by lia. rewrite sites_shift2. exact IH.
Qed.

Lemma cells_sites n : cells psi n = sites 0 (2 * n).
Proof.
  induction n as [|n IH]; [reflexivity|]. replace (2 * S n)%nat with (2 + 2 * n)%nat by lia. rewrite sites_app. change (0 + 2)%nat with (2 + 0)%nat. rewrite sites_shift2.
  unfold cells in *. cbn [repeat concat]. rewrite IH. reflexivity.
Qed.

Lemma cell_dims_sites n : cell_dims psi n = pdims (sites 0 (2 * n)).
Proof.
  rewrite <- cells_sites. unfold cell_dims, cells. induction n as [|n IH]; [reflexivity|]. cbn [repeat concat]. unfold pdims in *.
  rewrite map_app, <- IH. cbn [map]. unfold dim. rewrite HA, HB. unfold dim in HiA, HiB. rewrite HiA, HiB. reflexivity.
Qed.

Lemma bond_even n : bond (2 * n) = D.
Proof. unfold bond. rewrite Nat.odd_mul. reflexivity. Qed.
Lemma bond_odd n : bond (2 * n + 1) = E.
Proof. unfold bond. rewrite Nat.odd_add, Nat.odd_mul. reflexivity. Qed.

Lemma rinj_sq x : rinj (x * x)%R = kconj (rinj x) * rinj x.
Proof. rewrite rinj_mul, rinj_conj. reflexivity. Qed.

Lemma section_secT n M ops : (forall is js, in_range (pdims (sites 0 (2 * n))) is -> in_range (pdims (sites 0 (2 * n))) js -> M is js = prodop ops is js) ->
  section_mean psi n M = secT (2 * n) ops.
Proof.
  intros HM. unfold section_mean, secT. rewrite HlB, bond_even. apply sum_ext. intros a Ha. apply sum_ext. intros b Hb.
  unfold melem, TM, section, lw. rewrite cell_dims_sites, cells_sites. rewrite sumcfg_mul_l. apply sumcfg_ext. intros is His.
  rewrite sumcfg_mul_l. apply sumcfg_ext. intros js Hjs. rewrite (HM is js His Hjs), kconj_mul, rinj_sq. ring.
Qed.

Definition nn (n : nat) : list (option tensor) := repeat None n.

Lemma ops_ok_nn s n : ops_ok (sites s n) (sites s n) (nn n).
Proof. revert s. induction n as [|n IH]; intros s; [exact I|]. cbn [sites seq map nn repeat ops_ok]. split; [reflexivity|apply IH]. Qed.

Lemma secT_split n m o1 o2 : ops_ok (sites 0 n) (sites 0 n) o1 ->
  secT (n + m) (o1 ++ o2) = sum D (fun x => sum (bond n) (fun c => sum (bond n) (fun d => lw x * TM (sites 0 n) (sites 0 n) o1 x x c d *
    sum (bond (n + m)) (fun z => TM (sites n m) (sites n m) o2 c d z z)))).
Proof.
  intros Ho. unfold secT. apply sum_ext. intros x Hx. rewrite sites_app. cbn [Nat.add].
  transitivity (sum (bond (n + m)) (fun z => sum (bond n) (fun c => sum (bond n) (fun d => lw x * TM (sites 0 n) (sites 0 n) o1 x x c d * TM (sites n m) (sites n m) o2 c d z z)))).
  - apply sum_ext. intros z Hz.
    rewrite (TM_app (bond 0) (bond 0) (sites 0 n) (sites 0 n) o1 (bond n) (bond n) _ _ o2 (bond (n + m)) (bond (n + m)) x x z z
      (sites_linked 0 n) (sites_linked 0 n) (sites_linked n m) (sites_linked n m) Ho Hx Hx).
    rewrite sum_mul_l. apply sum_ext. intros c Hc. rewrite sum_mul_l. apply sum_ext. intros d Hd. ring.
  - rewrite sum_swap. apply sum_ext. intros c Hc. rewrite sum_swap. apply sum_ext. intros d Hd. rewrite sum_mul_l. reflexivity.
Qed.

(** If closing the [m] sites after site [n] gives eta times the identity, they can be left out. *)
Lemma secT_right n m o1 o2 eta : ops_ok (sites 0 n) (sites 0 n) o1 ->
  (forall c d, (c < bond n)%nat -> (d < bond n)%nat -> sum (bond (n + m)) (fun z => TM (sites n m) (sites n m) o2 c d z z) = eta * delta c d) ->
  secT (n + m) (o1 ++ o2) = eta * secT n o1.
Proof.
  intros Ho H. rewrite (secT_split n m o1 o2 Ho). unfold secT. rewrite sum_mul_l. apply sum_ext. intros x Hx. rewrite sum_mul_l.
  apply sum_ext. intros c Hc.
  transitivity (sum (bond n) (fun d => (lw x * TM (sites 0 n) (sites 0 n) o1 x x c d * eta) * delta c d)).
  - apply sum_ext. intros d Hd. rewrite H by assumption. ring.
  - rewrite (sum_delta_r' (bond n) c (fun d => lw x * TM (sites 0 n) (sites 0 n) o1 x x c d * eta)) by exact Hc. ring.
Qed.

Lemma TM_nn s n x y z w : TM (sites s n) (sites s n) (nn n) x y z w =
  sumcfg (pdims (sites s n)) (fun is => kconj (chain (sites s n) is x z) * chain (sites s n) is y w).
Proof. pose proof (TM_id (sites s n) (sites s n) x y z w eq_refl) as H. rewrite sites_length in H. exact H. Qed.

Lemma secT_right_cell n o1 eta : right_orthonormal psi eta -> ops_ok (sites 0 (2 * n)) (sites 0 (2 * n)) o1 ->
  secT (2 * n + 2) (o1 ++ [None; None]) = rinj eta * secT (2 * n) o1.
Proof.
  intros HR Ho. apply (secT_right (2 * n) 2 o1 [None; None]); [exact Ho|]. intros c d Hc Hd. rewrite bond_even in Hc, Hd.
  replace (2 * n + 2)%nat with (2 * (n + 1))%nat by lia. rewrite bond_even.
  rewrite <- (HR c d) by (rewrite HlB; assumption). rewrite HlB. apply sum_ext. intros z Hz.
  pose proof (sites_shift n 0 2) as Hs. rewrite Nat.add_0_r in Hs. rewrite Hs. change [None; None] with (nn 2). rewrite TM_nn.
  rewrite cell_dims_sites, cells_sites. reflexivity.
Qed.

Lemma secT_inner n o1 eta : right_orthonormal_inner psi eta -> ops_ok (sites 0 (2 * n + 1)) (sites 0 (2 * n + 1)) o1 ->
  secT (2 * n + 2) (o1 ++ [None]) = rinj eta * secT (2 * n + 1) o1.
Proof.
  intros HR Ho. replace (2 * n + 2)%nat with (2 * n + 1 + 1)%nat by lia. apply (secT_right (2 * n + 1) 1 o1 [None]); [exact Ho|].
  intros c d Hc Hd. rewrite bond_odd in Hc, Hd. replace (2 * n + 1 + 1)%nat with (2 * (n + 1))%nat by lia. rewrite bond_even.
  rewrite <- (HR c d) by (rewrite HlA; assumption). rewrite HlB. apply sum_ext. intros z Hz.
  rewrite (sites_shift n 1 1). change [None] with (nn 1). rewrite TM_nn. cbn [sites seq map pdims sumcfg].
  change (site 1) with (iBlB psi). unfold dim at 1. rewrite HB. cbn [nth]. rewrite HiB. apply sum_ext. intros i Hi.
  cbn [chain]. unfold dim. rewrite HB. cbn [nth]. rewrite !sum_delta_r by exact Hz. reflexivity.
Qed.

Hypothesis HiBd : dims (iB psi) = [E; dB; D].
Hypothesis HBl : forall b i a, (b < E)%nat -> (i < dB)%nat -> (a < D)%nat -> get (iBlB psi) [b; i; a] = get (iB psi) [b; i; a] * rinj (nth a (ilB psi) 0%R).

Lemma chain_cell is a b : in_range (pdims (sites 0 2)) is -> (b < D)%nat ->
  chain (sites 0 2) is a b = chain [iAlA psi; iB psi] is a b * rinj (nth b (ilB psi) 0%R).
Proof.
  intros His Hb. cbn [sites seq map pdims] in *. change (site 0) with (iAlA psi) in *. change (site 1) with (iBlB psi) in *.
  unfold dim in His. rewrite HA, HB in His. cbn [nth] in His.
  apply in_range_cons_inv in His. destruct His as (i & is1 & -> & Hi & His). apply in_range_cons_inv in His.
  destruct His as (j & is2 & -> & Hj & His). apply in_range_nil_inv in His. subst is2.
  cbn [chain]. unfold dim. rewrite HA, HB, HiBd. cbn [nth]. rewrite sum_mul_r. apply sum_ext. intros c Hc.
  rewrite !sum_delta_r by exact Hb. rewrite HBl by assumption. ring.
Qed.

Lemma secT_left_cell n o2 eta : left_orthonormal psi eta -> 
  secT (2 + 2 * n) ([None; None] ++ o2) = rinj eta * secT (2 * n) o2.
Proof.
  intros HL. rewrite (secT_split 2 (2 * n) [None; None] o2) by apply (ops_ok_nn 0 2).
  replace (2 + 2 * n)%nat with (2 * (n + 1))%nat by lia. rewrite bond_even. change (bond 2) with D.
  rewrite (sites_shift2 0 (2 * n) : sites 2 (2 * n) = sites 0 (2 * n)). change [None; None] with (nn 2).
  unfold secT. rewrite bond_even.
  transitivity (sum D (fun c => sum D (fun d => sum D (fun x => lw x * TM (sites 0 2) (sites 0 2) (nn 2) x x c d) *
     sum D (fun z => TM (sites 0 (2 * n)) (sites 0 (2 * n)) o2 c d z z)))).
  { rewrite sum_swap. apply sum_ext. intros c Hc. rewrite sum_swap. apply sum_ext. intros d Hd. rewrite sum_mul_r. reflexivity. }
  rewrite sum_mul_l. apply sum_ext. intros c Hc.
  transitivity (sum D (fun d => (rinj eta * lw d * sum D (fun z => TM (sites 0 (2 * n)) (sites 0 (2 * n)) o2 c d z z)) * delta c d)).
  - apply sum_ext. intros d Hd.
    transitivity (rinj eta * delta c d * (rinj (nth c (ilB psi) 0%R) * rinj (nth d (ilB psi) 0%R)) * sum D (fun z => TM (sites 0 (2 * n)) (sites 0 (2 * n)) o2 c d z z)).
    + f_equal. rewrite <- (HL c d) by (rewrite HlB; assumption). rewrite HlB, sum_mul_r. apply sum_ext. intros x Hx.
      rewrite TM_nn, sumcfg_mul_l, sumcfg_mul_r. change (cell_dims psi 1) with (cell_dims psi 1). rewrite cell_dims_sites. apply sumcfg_ext. intros is His.
      rewrite !chain_cell by assumption. unfold lw. rewrite rinj_sq, !kconj_mul, !rinj_conj. ring.
    + unfold lw, delta. destruct (Nat.eqb_spec c d) as [->|_]; [rewrite rinj_mul|]; ring.
  - rewrite (sum_delta_r' D c (fun d => rinj eta * lw d * sum D (fun z => TM (sites 0 (2 * n)) (sites 0 (2 * n)) o2 c d z z))) by exact Hc.
    rewrite <- sum_mul_l. ring.
Qed.

(** *** Products of operators on a section *)
Definition gops (g : nat -> tensor) (n : nat) : list (option tensor) := map oo (map g (seq 0 n)).

Lemma section_product N g :
  section_mean psi N (product_op 0 (fun k => op_of (g k))) = secT (2 * N) (gops g (2 * N)).
Proof.
  apply section_secT. intros is js His Hjs. unfold gops. rewrite map_map.
  rewrite (prodop_product_op (fun k => oo (g k)) 0 is js (2 * N)).
  - apply product_op_ext. intros k i j _. symmetry. apply opel_oo.
  - rewrite (in_range_length _ _ His). rewrite length_pdims. apply sites_length.
  - rewrite (in_range_length _ _ Hjs). rewrite length_pdims. apply sites_length.
Qed.

Lemma section_id N : section_mean psi N id_op = secT (2 * N) (nn (2 * N)).
Proof.
  apply section_secT. intros is js His Hjs.
  replace (2 * N)%nat with (length is) by (rewrite (in_range_length _ _ His), length_pdims; apply sites_length).
  symmetry. apply prodop_nones. rewrite (in_range_length _ _ His), (in_range_length _ _ Hjs). reflexivity.
Qed.

Definition orthoL (m : nat) (eta : R) : Prop := m = 0%nat \/ left_orthonormal psi eta.
Definition orthoR (n : nat) (eta : R) : Prop := n = 0%nat \/ right_orthonormal psi eta.

Lemma nn_app n m : nn (n + m) = nn n ++ nn m.
Proof. apply repeat_app. Qed.

Lemma secT_left_cells m n o2 eta : orthoL m eta -> secT (2 * m + 2 * n) (nn (2 * m) ++ o2) = kpow (rinj eta) m * secT (2 * n) o2.
Proof.
  intros H. induction m as [|m IH]; [cbn [Nat.mul Nat.add nn repeat app kpow]; ring|].
  assert (HL : left_orthonormal psi eta) by (destruct H as [H|H]; [discriminate H|exact H]).
  replace (2 * S m)%nat with (2 + 2 * m)%nat by lia. rewrite nn_app, <- app_assoc.
  replace (2 + 2 * m + 2 * n)%nat with (2 + 2 * (m + n))%nat by lia. rewrite (secT_left_cell (m + n) _ eta HL).
  replace (2 * (m + n))%nat with (2 * m + 2 * n)%nat by lia. rewrite IH by (right; exact HL). cbn [kpow]. ring.
Qed.

Lemma secT_right_cells c n o1 eta : orthoR n eta -> ops_ok (sites 0 (2 * c)) (sites 0 (2 * c)) o1 ->
  secT (2 * c + 2 * n) (o1 ++ nn (2 * n)) = kpow (rinj eta) n * secT (2 * c) o1.
Proof.
  intros H Ho. revert c o1 Ho. induction n as [|n IH]; intros c o1 Ho; [cbn [Nat.mul nn repeat kpow]; rewrite Nat.add_0_r, app_nil_r; ring|].
  assert (HL : right_orthonormal psi eta) by (destruct H as [H|H]; [discriminate H|exact H]).
  replace (2 * S n)%nat with (2 + 2 * n)%nat by lia. rewrite nn_app, app_assoc.
  replace (2 * c + (2 + 2 * n))%nat with (2 * (c + 1) + 2 * n)%nat by lia.
  rewrite (IH (or_intror HL) (c + 1)%nat).
  - replace (2 * (c + 1))%nat with (2 * c + 2)%nat by lia. change (nn 2) with [@None tensor; None]. rewrite (secT_right_cell c o1 eta HL Ho). cbn [kpow]. ring.
  - replace (2 * (c + 1))%nat with (2 * c + 2)%nat by lia. rewrite sites_app. cbn [Nat.add].
    clear - Ho. revert Ho. generalize (ops_ok_nn (2 * c) 2). generalize (sites 0 (2 * c)) (sites (2 * c) 2). revert o1.
    intros o1 l1 l2 H2. revert l1. induction o1 as [|o o1 IH]; intros [|A l1] H; cbn in H |- *; try contradiction; [exact H2|].
    destruct H as [H Ho]. split; [exact H|]. apply IH. exact Ho.
Qed.

Lemma ops_ok_gops g n : (forall k, (k < n)%nat -> op_fits (g k) (phys k)) -> ops_ok (sites 0 n) (sites 0 n) (gops g n).
Proof.
  intros H. unfold gops. replace n with (length (map g (seq 0 n))) at 1 2 by (rewrite map_length, seq_length; reflexivity).
  apply fits_ok.
  assert (G : forall m s, (s + m <= n)%nat -> fits s (map g (seq s m))).
  { induction m as [|m IH]; intros s Hs; [exact I|]. cbn [seq map fits]. split; [apply H; lia|apply IH; lia]. }
  apply (G n 0%nat). lia.
Qed.

Lemma map_none q s : map (fun _ : nat => @None tensor) (seq s q) = repeat None q.
Proof. revert s. induction q as [|q IH]; intros s; [reflexivity|]. cbn [seq map repeat]. f_equal. apply IH. Qed.


Lemma extend_product m c n eL eR g :
  orthoL m eL -> orthoR n eR -> (forall k, (k < 2 * c)%nat -> op_fits (g k) (phys k)) ->
  section_mean psi (m + c + n) (product_op 0 (fun k => if (Nat.leb (2 * m) k && Nat.ltb k (2 * m + 2 * c))%bool then op_of (g (k - 2 * m)%nat) else delta)) =
  kpow (rinj eL) m * kpow (rinj eR) n * secT (2 * c) (gops g (2 * c)).
Proof.
  intros HL HR Hg.
  set (h := fun k => if (Nat.leb (2 * m) k && Nat.ltb k (2 * m + 2 * c))%bool then g (k - 2 * m)%nat else empty).
  transitivity (section_mean psi (m + c + n) (product_op 0 (fun k => op_of (h k)))).
  { unfold section_mean. apply sum_ext. intros a Ha. apply sum_ext. intros b Hb. unfold melem. apply sumcfg_ext. intros is His.
    apply sumcfg_ext. intros js Hjs. f_equal. f_equal. apply product_op_ext. intros k i j _. unfold h.
    destruct (Nat.leb (2 * m) k && Nat.ltb k (2 * m + 2 * c))%bool; reflexivity. }
  rewrite section_product. replace (2 * (m + c + n))%nat with (2 * m + (2 * c + 2 * n))%nat by lia.
  assert (EG : gops h (2 * m + (2 * c + 2 * n)) = nn (2 * m) ++ gops g (2 * c) ++ nn (2 * n)).
  { unfold gops, nn. rewrite !map_map, !seq_app, !map_app. cbn [Nat.add]. f_equal; [|f_equal].
    - transitivity (map (fun _ : nat => @None tensor) (seq 0 (2 * m))).
      + apply map_ext_in. intros k Hk. apply in_seq in Hk. unfold h.
        destruct (Nat.leb_spec (2 * m) k); [lia|]. reflexivity.
      + apply map_none.
    - transitivity (map (fun x => oo (g x)) (map (fun k => (k - 2 * m)%nat) (seq (2 * m) (2 * c)))).
      + rewrite map_map. apply map_ext_in. intros k Hk. apply in_seq in Hk. unfold h.
        destruct (Nat.leb_spec (2 * m) k); [|lia]. destruct (Nat.ltb_spec k (2 * m + 2 * c)); [|lia]. reflexivity.
      + f_equal. rewrite <- (map_sub (2 * m) 0 (2 * c)). rewrite Nat.add_0_r. reflexivity.
    - transitivity (map (fun _ : nat => @None tensor) (seq (2 * m + 2 * c) (2 * n))).
      + apply map_ext_in. intros k Hk. apply in_seq in Hk. unfold h.
        destruct (Nat.ltb_spec k (2 * m + 2 * c)); [lia|]. rewrite andb_false_r. reflexivity.
      + apply map_none. }
  rewrite EG. replace (2 * m + (2 * c + 2 * n))%nat with (2 * m + 2 * (c + n))%nat by lia.
  rewrite (secT_left_cells m (c + n) _ eL HL). replace (2 * (c + n))%nat with (2 * c + 2 * n)%nat by lia.
  rewrite (secT_right_cells c n _ eR HR) by (apply ops_ok_gops; exact Hg). ring.
Qed.

Lemma extend_id m c n eL eR : orthoL m eL -> orthoR n eR ->
  section_mean psi (m + c + n) id_op = kpow (rinj eL) m * kpow (rinj eR) n * secT (2 * c) (nn (2 * c)).
Proof.
  intros HL HR. rewrite section_id. replace (2 * (m + c + n))%nat with (2 * m + 2 * (c + n))%nat by lia. rewrite nn_app.
  rewrite (secT_left_cells m (c + n) _ eL HL). replace (2 * (c + n))%nat with (2 * c + 2 * n)%nat by lia. rewrite nn_app.
  rewrite (secT_right_cells c n _ eR HR) by apply (ops_ok_nn 0). ring.
Qed.


(** *** do_string_order *)
Definition opf (Opi Opm Opj : tensor) (i j k : nat) : tensor :=
  if Nat.eqb k i then Opi else if Nat.eqb k j then Opj else if Nat.ltb i k && Nat.ltb k j then Opm else empty.

(** The number of sites of the loop *)
Definition nloop (j : nat) : nat := if Nat.odd j then (j + 2)%nat else (j + 1)%nat.

Lemma vrun_cons v s o ops : vrun v s (o :: ops) = vrun (propagate_right v (site s) o) (S s) ops.
Proof. reflexivity. Qed.

Lemma string_loop_ok Opi Opm Opj i j : forall n s fuel v1 v2, (s + n = nloop j)%nat -> (n <= fuel)%nat ->
  string_loop fuel psi Opi Opm Opj (Z.of_nat i) (Z.of_nat j) (Z.of_nat s) v1 v2 =
  kdiv (mtrace (vrun v1 s (map (opf Opi Opm Opj i j) (seq s n)))) (mtrace (vrun v2 s (repeat empty n))).
Proof.
  induction n as [|n IH]; intros s fuel v1 v2 Hs Hf.
  - assert (Hc : ((Z.of_nat s <=? Z.of_nat j)%Z || negb (Z.odd (Z.of_nat s)))%bool = false).
    { rewrite odd_of_nat. unfold nloop in Hs. rewrite Nat.add_0_r in Hs. subst s. apply orb_false_intro.
      - apply Z.leb_gt. destruct (Nat.odd j); lia.
      - destruct (Nat.odd j) eqn:Ej; rewrite Nat.odd_add, Ej; reflexivity. }
    destruct fuel; cbn [string_loop seq map repeat vrun]; rewrite Hc; reflexivity.
  - assert (Hc : ((Z.of_nat s <=? Z.of_nat j)%Z || negb (Z.odd (Z.of_nat s)))%bool = true).
    { rewrite odd_of_nat. unfold nloop in Hs. destruct (Nat.odd j) eqn:Ej.
      - destruct (Z.leb_spec (Z.of_nat s) (Z.of_nat j)); [reflexivity|]. assert (Es : s = S j) by lia. subst s. rewrite odd_S, Ej. reflexivity.
      - apply orb_true_intro. left. apply Z.leb_le. lia. }
    destruct fuel as [|fuel]; [lia|]. cbn [string_loop]. rewrite Hc. cbv zeta.
    replace (Z.of_nat s + 1)%Z with (Z.of_nat (S s)) by lia. rewrite IH by lia.
    cbn [seq map repeat]. rewrite !vrun_cons. change (combined_matrix psi (Z.of_nat s)) with (site s).
    assert (Eo : (if (Z.of_nat s =? Z.of_nat i)%Z then Opi else if (Z.of_nat s =? Z.of_nat j)%Z then Opj
      else if (Z.of_nat i <? Z.of_nat s)%Z && (Z.of_nat s <? Z.of_nat j)%Z then Opm else empty) = opf Opi Opm Opj i j s).
    { unfold opf. destruct (Z.eqb_spec (Z.of_nat s) (Z.of_nat i)), (Nat.eqb_spec s i); try lia; [reflexivity|].
      destruct (Z.eqb_spec (Z.of_nat s) (Z.of_nat j)), (Nat.eqb_spec s j); try lia; [reflexivity|].
      destruct (Z.ltb_spec (Z.of_nat i) (Z.of_nat s)), (Nat.ltb_spec i s); try lia; [|reflexivity].
      destruct (Z.ltb_spec (Z.of_nat s) (Z.of_nat j)), (Nat.ltb_spec s j); try lia; reflexivity. }
    rewrite Eo. reflexivity.
Qed.

Lemma fits_opf Opi Opm Opj i j n : (forall k, (k < n)%nat -> op_fits (opf Opi Opm Opj i j k) (phys k)) -> forall m s, (s + m <= n)%nat -> fits s (map (opf Opi Opm Opj i j) (seq s m)).
Proof.
  intros H m. induction m as [|m IH]; intros s Hs; [exact I|]. cbn [seq map fits]. split; [apply H; lia|apply IH; lia].
Qed.

Lemma fits_empty n s : fits s (repeat empty n).
Proof. revert s. induction n as [|n IH]; intros s; [exact I|]. cbn [repeat fits]. split; [left; reflexivity|apply IH]. Qed.

Lemma oo_empty n : map oo (repeat empty n) = nn n.
Proof. unfold nn. induction n as [|n IH]; [reflexivity|]. cbn [repeat map]. rewrite IH. reflexivity. Qed.

Lemma string_loop_value Opi Opm Opj i j fuel : (forall k, (k <= j)%nat -> op_fits (opf Opi Opm Opj i j k) (phys k)) -> (nloop j <= fuel)%nat -> (i <= j)%nat ->
  string_loop fuel psi Opi Opm Opj (Z.of_nat i) (Z.of_nat j) 0 (left_boundary psi 0) (left_boundary psi 0) =
  kdiv (secT (nloop j) (gops (opf Opi Opm Opj i j) (nloop j))) (secT (nloop j) (nn (nloop j))).
Proof.
  intros Hop Hf Hij. change 0%Z with (Z.of_nat 0) at 1. rewrite (string_loop_ok Opi Opm Opj i j (nloop j) 0) by (auto; lia).
  assert (Hall : forall k, (k < nloop j)%nat -> op_fits (opf Opi Opm Opj i j k) (phys k)).
  { intros k _. destruct (Nat.leb_spec k j); [apply Hop; assumption|]. left. unfold opf.
    destruct (Nat.eqb_spec k i); [lia|]. destruct (Nat.eqb_spec k j); [lia|]. destruct (Nat.ltb_spec k j); [lia|]. rewrite andb_false_r. reflexivity. }
  rewrite mtrace_vrun by (apply (fits_opf Opi Opm Opj i j (nloop j) Hall); lia). rewrite mtrace_vrun by apply fits_empty.
  rewrite map_length, seq_length, repeat_length, oo_empty. reflexivity.
Qed.

(** *** do_string_order_many *)
Definition pre (Opi Opm : tensor) (n : nat) : list tensor := map (fun k => if Nat.eqb k 0 then Opi else Opm) (seq 0 n).

Lemma vrun_app v s o1 o2 : vrun v s (o1 ++ o2) = vrun (vrun v s o1) (s + length o1) o2.
Proof.
  revert v s. induction o1 as [|o o1 IH]; intros v s; [cbn; rewrite Nat.add_0_r; reflexivity|].
  cbn [app vrun length]. rewrite IH. f_equal. lia.
Qed.

Lemma pre_S Opi Opm n : pre Opi Opm (S n) = pre Opi Opm n ++ [if Nat.eqb n 0 then Opi else Opm].
Proof. unfold pre. rewrite seq_S, map_app. reflexivity. Qed.

Definition sop (Opi Opm Opj OO : tensor) (k : nat) : list tensor :=
  pre Opi Opm k ++ [if Nat.eqb k 0 then OO else Opj].
Definition fin (Opi Opm Opj OO : tensor) (k : nat) : list tensor :=
  if Nat.odd k then sop Opi Opm Opj OO k else sop Opi Opm Opj OO k ++ [empty].
Definition val (Opi Opm Opj OO : tensor) (k : nat) : result K :=
  kdiv (mtrace (vrun (left_boundary psi 0) 0 (fin Opi Opm Opj OO k)))
       (mtrace (vrun (left_boundary psi 0) 0 (repeat empty (if Nat.odd k then S k else S (S k))))).




Lemma many_loop_ok Opi Opm Opj OO n : forall s v2 nv,
  (if Nat.odd s then nv = Some (vrun (left_boundary psi 0) 0 (repeat empty (S s)))
   else nv = None /\ v2 = vrun (left_boundary psi 0) 0 (repeat empty s)) ->
  many_loop n psi Opi Opm Opj OO (Z.of_nat s) (vrun (left_boundary psi 0) 0 (pre Opi Opm s)) v2 nv =
  seqr (val Opi Opm Opj OO) s n.
Proof.
  induction n as [|n IH]; intros s v2 nv Hn; [reflexivity|].
  cbn [many_loop seqr]. cbv zeta. change (combined_matrix psi (Z.of_nat s)) with (site s).
  replace (Z.of_nat s + 1)%Z with (Z.of_nat (S s)) by lia. change (combined_matrix psi (Z.of_nat (S s))) with (site (S s)).
  assert (E0 : (Z.of_nat s =? 0)%Z = Nat.eqb s 0) by (destruct (Z.eqb_spec (Z.of_nat s) 0), (Nat.eqb_spec s 0); lia || reflexivity).
  rewrite E0, odd_of_nat.
  assert (Lp : length (pre Opi Opm s) = s) by (unfold pre; rewrite map_length, seq_length; reflexivity).
  assert (Ev1 : propagate_right (vrun (left_boundary psi 0) 0 (pre Opi Opm s)) (site s) (if Nat.eqb s 0 then Opi else Opm) =
                vrun (left_boundary psi 0) 0 (pre Opi Opm (S s))).
  { rewrite pre_S, vrun_app, Lp. reflexivity. }
  assert (Ev : propagate_right (vrun (left_boundary psi 0) 0 (pre Opi Opm s)) (site s) (if Nat.eqb s 0 then OO else Opj) =
               vrun (left_boundary psi 0) 0 (sop Opi Opm Opj OO s)).
  { unfold sop. rewrite vrun_app, Lp. reflexivity. }
  rewrite Ev1, Ev. clear Ev1 Ev.
  destruct (Nat.odd s) eqn:Es; cbn [negb].
  - subst nv. unfold val, fin. rewrite Es.
    destruct (kdiv (mtrace (vrun (left_boundary psi 0) 0 (sop Opi Opm Opj OO s))) (mtrace (vrun (left_boundary psi 0) 0 (repeat empty (S s))))) as [x|]; [|reflexivity].
    cbn [bind]. rewrite IH; [reflexivity|]. rewrite odd_S, Es. cbn [negb]. auto.
  - destruct Hn as [-> ->].
    assert (Ew : propagate_right (vrun (left_boundary psi 0) 0 (repeat empty s)) (site s) empty = vrun (left_boundary psi 0) 0 (repeat empty (S s))).
    { rewrite repeat_S_app, vrun_app, repeat_length. reflexivity. }
    assert (Ew2 : propagate_right (vrun (left_boundary psi 0) 0 (repeat empty (S s))) (site (S s)) empty = vrun (left_boundary psi 0) 0 (repeat empty (S (S s)))).
    { rewrite (repeat_S_app empty (S s)), vrun_app, repeat_length. reflexivity. }
    assert (Es2 : propagate_right (vrun (left_boundary psi 0) 0 (sop Opi Opm Opj OO s)) (site (S s)) empty =
      vrun (left_boundary psi 0) 0 (fin Opi Opm Opj OO s)).
    { unfold fin. rewrite Es, vrun_app. unfold sop. rewrite app_length, Lp. cbn [length Nat.add]. replace (s + 1)%nat with (S s) by lia. reflexivity. }
    rewrite Ew, Ew2, Es2. unfold val. rewrite Es.
    destruct (kdiv (mtrace (vrun (left_boundary psi 0) 0 (fin Opi Opm Opj OO s))) (mtrace (vrun (left_boundary psi 0) 0 (repeat empty (S (S s)))))) as [x|]; [|reflexivity].
    cbn [bind]. rewrite IH; [reflexivity|]. rewrite odd_S, Es. cbn [negb]. reflexivity.
Qed.

Lemma val_secT Opi Opm Opj OO k : fits 0 (fin Opi Opm Opj OO k) ->
  val Opi Opm Opj OO k = kdiv (secT (length (fin Opi Opm Opj OO k)) (map oo (fin Opi Opm Opj OO k)))
                              (secT (length (fin Opi Opm Opj OO k)) (nn (length (fin Opi Opm Opj OO k)))).
Proof.
  intros Hf. unfold val. rewrite mtrace_vrun by exact Hf. rewrite mtrace_vrun by apply fits_empty.
  rewrite repeat_length, oo_empty. f_equal.
  assert (L : length (fin Opi Opm Opj OO k) = (if Nat.odd k then S k else S (S k))); [|rewrite L; reflexivity].
  unfold fin, sop, pre. destruct (Nat.odd k); rewrite ?app_length, map_length, seq_length; cbn [length]; lia.
Qed.


Lemma fin_opf Opi Opm Opj OO k : (0 < k)%nat ->
  fin Opi Opm Opj OO k = map (opf Opi Opm Opj 0 k) (seq 0 (2 * (k / 2 + 1))).
Proof.
  intros Hk. rewrite double_half.
  assert (Es : sop Opi Opm Opj OO k = map (opf Opi Opm Opj 0 k) (seq 0 (S k))).
  { rewrite seq_S, map_app. unfold sop, pre. f_equal.
    - apply map_ext_in. intros x Hx. apply in_seq in Hx. unfold opf. destruct (Nat.eqb_spec x 0); [reflexivity|].
      destruct (Nat.eqb_spec x k); [lia|]. destruct (Nat.ltb_spec 0 x); [|lia]. destruct (Nat.ltb_spec x k); [|lia]. reflexivity.
    - cbn [map Nat.add]. unfold opf. rewrite Nat.eqb_refl. destruct (Nat.eqb_spec k 0); [lia|]. reflexivity. }
  unfold fin. rewrite Es. destruct (Nat.odd k); [reflexivity|]. rewrite (seq_S (S k)), map_app. f_equal. cbn [map Nat.add]. unfold opf.
  destruct (Nat.eqb_spec (S k) k); [lia|]. destruct (Nat.ltb_spec (S k) k); [lia|]. rewrite andb_false_r. reflexivity.
Qed.

Lemma fin_zero Opi Opm Opj OO : fin Opi Opm Opj OO 0 = [OO; empty].
Proof. reflexivity. Qed.

(** *** do_expected12 *)
Lemma mtrace_prun p ops : linked D p D -> pfits p ops ->
  mtrace (prun (left_boundary psi 0) p ops) = sum D (fun x => sum D (fun z => lw x * TM p p (map oo ops) x x z z)).
Proof.
  intros Hl Hf. destruct left_boundary_ok as (Hd & Hw & Hg). destruct (prun_ok ops p _ D D Hd Hw Hl Hf) as (Hd1 & _ & Hg1).
  unfold mtrace, dim. rewrite Hd1. cbn [nth]. rewrite sum_swap. apply sum_ext. intros z Hz.
  rewrite Hg1 by assumption. apply sum_ext. intros x Hx.
  transitivity (sum D (fun y => delta x y * (lw x * TM p p (map oo ops) x y z z))).
  - apply sum_ext. intros y Hy. rewrite Hg by assumption. ring.
  - rewrite (sum_delta_l' D x (fun y => lw x * TM p p (map oo ops) x y z z)) by exact Hx. reflexivity.
Qed.

Lemma section_sumcfg n M : section_mean psi n M = sum D (fun x => sum D (fun z => lw x *
  sumcfg (pdims (cells psi n)) (fun is => sumcfg (pdims (cells psi n)) (fun js => kconj (chain (cells psi n) is x z) * M is js * chain (cells psi n) js x z)))).
Proof.
  unfold section_mean. rewrite HlB. apply sum_ext. intros a Ha. apply sum_ext. intros b Hb.
  unfold melem, section, lw. rewrite cell_dims_sites, cells_sites. rewrite sumcfg_mul_l. apply sumcfg_ext. intros is His.
  rewrite sumcfg_mul_l. apply sumcfg_ext. intros js Hjs. rewrite kconj_mul, rinj_sq. ring.
Qed.

Lemma linked_join A B a i b j c : dims A = [a; i; b] -> wf A -> dims B = [b; j; c] -> wf B -> (0 < i)%nat -> (0 < j)%nat -> (0 < c)%nat -> linked a [join2 A B] c.
Proof.
  intros H1 H2 H3 H4 Hi Hj Hc. destruct (join2_ok A B a i b j c H1 H3) as (Hd & Hw & _). exists (i * j)%nat, c. repeat split; auto. nia.
Qed.

Lemma expected_even op : op_fits op (dA * dB) ->
  mtrace (propagate_right (left_boundary psi 0) (join2 (iAlA psi) (iBlB psi)) op) =
  section_mean psi 1 (pair_op 0 (cell_dims psi 1) (op_of op)).
Proof.
  intros Hop. destruct (join2_ok _ _ _ _ _ _ _ HA HB) as (Hd & Hw & Hg).
  change (propagate_right (left_boundary psi 0) (join2 (iAlA psi) (iBlB psi)) op) with (prun (left_boundary psi 0) [join2 (iAlA psi) (iBlB psi)] [op]).
  rewrite mtrace_prun; [|apply (linked_join _ _ D dA E dB D); auto|split; [unfold dim; rewrite Hd; exact Hop|exact I]].
  rewrite section_sumcfg. apply sum_ext. intros x Hx. apply sum_ext. intros z Hz. f_equal. cbn [map].
  rewrite (TM_single _ _ _ _ _ _ _ _ _ _ _ _ _ Hd Hd Hz Hz). rewrite (E1_join _ _ D dA E dB D op x x z z HA HB) by assumption.
  unfold cells, cell_dims. cbn [repeat concat app pdims map]. rewrite HiA, HiB. unfold dim. rewrite HA, HB. cbn [nth].
  cbn [sumcfg]. repeat (apply sum_ext; intros ? ?). cbn [nth pair_op id_op]. ring.
Qed.

Lemma expected_odd op : op_fits op (dB * dA) ->
  mtrace (propagate_right (propagate_right (propagate_right (left_boundary psi 0) (iAlA psi) empty) (join2 (iBlB psi) (iAlA psi)) op) (iBlB psi) empty) =
  section_mean psi 2 (pair_op 1 (cell_dims psi 2) (op_of op)).
Proof.
  intros Hop. destruct (join2_ok _ _ _ _ _ _ _ HB HA) as (Hd & Hw & Hg).
  change (propagate_right (propagate_right (propagate_right (left_boundary psi 0) (iAlA psi) empty) (join2 (iBlB psi) (iAlA psi)) op) (iBlB psi) empty)
    with (prun (left_boundary psi 0) [iAlA psi; join2 (iBlB psi) (iAlA psi); iBlB psi] [empty; op; empty]).
  rewrite mtrace_prun.
  2:{ change [iAlA psi; join2 (iBlB psi) (iAlA psi); iBlB psi] with ([iAlA psi] ++ [join2 (iBlB psi) (iAlA psi)] ++ [iBlB psi]).
      apply linked_app. exists E. split; [exists dA, E; repeat split; auto|]. apply linked_app. exists E. split; [apply (linked_join _ _ E dB D dA E); auto|exists dB, D; repeat split; auto]. }
  2:{ split; [left; reflexivity|]. split; [unfold dim; rewrite Hd; exact Hop|]. split; [left; reflexivity|exact I]. }
  rewrite section_sumcfg. apply sum_ext. intros x Hx. apply sum_ext. intros z Hz. f_equal.
  unfold TM, cells, cell_dims. cbn [repeat concat app pdims map]. rewrite HiA, HiB. 
  replace (dim (join2 (iBlB psi) (iAlA psi)) 1) with (dB * dA)%nat by (unfold dim; rewrite Hd; reflexivity).
  replace (dim (iAlA psi) 1) with dA by (unfold dim; rewrite HA; reflexivity). replace (dim (iBlB psi) 1) with dB by (unfold dim; rewrite HB; reflexivity).
  assert (Hch : forall i p q j, (p < dB)%nat -> (q < dA)%nat -> chain [iAlA psi; join2 (iBlB psi) (iAlA psi); iBlB psi] [i; (p + dB * q)%nat; j] x z =
    chain [iAlA psi; iBlB psi; iAlA psi; iBlB psi] [i; p; q; j] x z).
  { intros i p q j Hp Hq. change [iAlA psi; join2 (iBlB psi) (iAlA psi); iBlB psi] with ([iAlA psi] ++ [join2 (iBlB psi) (iAlA psi); iBlB psi]).
    cbn [chain app]. unfold dim. rewrite HA, HB, Hd. cbn [nth]. apply sum_ext. intros c Hc. f_equal.
    transitivity (sum E (fun e => sum D (fun f => get (iBlB psi) [c; p; f] * get (iAlA psi) [f; q; e]) * sum D (fun g => get (iBlB psi) [e; j; g] * delta g z))).
    - apply sum_ext. intros e He. rewrite Hg by assumption. f_equal. cbn [chain]. unfold dim. rewrite HA, HB. cbn [nth]. apply sum_ext. intros f Hf.
      rewrite sum_delta_r by exact He. reflexivity.
    - transitivity (sum E (fun e => sum D (fun f => get (iBlB psi) [c; p; f] * (get (iAlA psi) [f; q; e] * sum D (fun g => get (iBlB psi) [e; j; g] * delta g z))))).
      { apply sum_ext. intros e He. rewrite sum_mul_r. apply sum_ext. intros f Hf. ring. }
      rewrite sum_swap. apply sum_ext. intros f Hf. rewrite sum_mul_l. reflexivity. }
  cbn [sumcfg]. apply sum_ext. intros i Hi. rewrite sum_merge, sum_swap. apply sum_ext. intros p Hp. apply sum_ext. intros q Hq. apply sum_ext. intros j Hj.
  apply sum_ext. intros i' Hi'. rewrite sum_merge, sum_swap. apply sum_ext. intros p' Hp'. apply sum_ext. intros q' Hq'. apply sum_ext. intros j' Hj'.
  rewrite !Hch by assumption. cbn [map prodop pair_op id_op]. rewrite !opel_oo. change (op_of empty) with (@delta rs_scalar). ring.
Qed.


(** *** Operators on a longer section *)
Definition gTM (p : mps) (M : list nat -> list nat -> K) (x y z w : nat) : K :=
  sumcfg (pdims p) (fun is => sumcfg (pdims p) (fun js => kconj (chain p is x z) * M is js * chain p js y w)).

Lemma gTM_app l p1 M1 m p2 M2 r M x y z w :
  linked l p1 m -> linked m p2 r -> (x < l)%nat -> (y < l)%nat ->
  (forall i1 j1 i2 j2, in_range (pdims p1) i1 -> in_range (pdims p1) j1 -> in_range (pdims p2) i2 -> in_range (pdims p2) j2 ->
     M (i1 ++ i2) (j1 ++ j2) = M1 i1 j1 * M2 i2 j2) ->
  gTM (p1 ++ p2) M x y z w = sum m (fun c => sum m (fun d => gTM p1 M1 x y c d * gTM p2 M2 c d z w)).
Proof.
  intros H1 H3 Hx Hy HM. unfold gTM. rewrite !pdims_app. rewrite sumcfg_app.
  transitivity (sumcfg (pdims p1) (fun i1 => sumcfg (pdims p2) (fun i2 =>
    sumcfg (pdims p1) (fun j1 => sumcfg (pdims p2) (fun j2 =>
      sum m (fun c => sum m (fun d =>
        (kconj (chain p1 i1 x c) * M1 i1 j1 * chain p1 j1 y d) *
        (kconj (chain p2 i2 c z) * M2 i2 j2 * chain p2 j2 d w)))))))).
  - apply sumcfg_ext. intros i1 Hi1. apply sumcfg_ext. intros i2 Hi2.
    rewrite sumcfg_app. apply sumcfg_ext. intros j1 Hj1. apply sumcfg_ext. intros j2 Hj2.
    rewrite HM by assumption.
    apply in_range_length in Hi1, Hj1. rewrite length_pdims in Hi1, Hj1.
    rewrite !(chain_app l p1 m p2 r) by assumption.
    rewrite sum_conj, !sum_mul_r. apply sum_ext. intros c Hc.
    rewrite sum_mul_l. apply sum_ext. intros d Hd. rewrite kconj_mul. ring.
  - apply (sumcfg4_factor (pdims p1) (pdims p2) (pdims p1) (pdims p2) m m
      (fun c d i1 j1 => kconj (chain p1 i1 x c) * M1 i1 j1 * chain p1 j1 y d)
      (fun c d i2 j2 => kconj (chain p2 i2 c z) * M2 i2 j2 * chain p2 j2 d w)).
Qed.

Lemma gTM_id s n x y z w : gTM (sites s n) id_op x y z w = TM (sites s n) (sites s n) (nn n) x y z w.
Proof.
  unfold gTM, TM. apply sumcfg_ext. intros is His. apply sumcfg_ext. intros js Hjs. f_equal. f_equal. symmetry.
  replace n with (length is) by (rewrite (in_range_length _ _ His), length_pdims; apply sites_length).
  apply prodop_nones. rewrite (in_range_length _ _ His), (in_range_length _ _ Hjs). reflexivity.
Qed.

Lemma section_gTM n M : section_mean psi n M = sum D (fun x => sum D (fun z => lw x * gTM (sites 0 (2 * n)) M x x z z)).
Proof. rewrite section_sumcfg. rewrite cells_sites. reflexivity. Qed.

Definition rows (n : nat) : list nat := pdims (sites 0 (2 * n)).

Lemma sites_cells m n : sites 0 (2 * (m + n)) = sites 0 (2 * m) ++ sites 0 (2 * n).
Proof.
  replace (2 * (m + n))%nat with (2 * m + 2 * n)%nat by lia. rewrite sites_app. pose proof (sites_shift m 0 (2 * n)) as H.
  rewrite Nat.add_0_r in H. cbn [Nat.add]. rewrite H. reflexivity.
Qed.

Lemma linkedD n : linked D (sites 0 (2 * n)) D.
Proof. pose proof (sites_linked 0 (2 * n)) as H. cbn [Nat.add] in H. rewrite bond_even in H. exact H. Qed.

Lemma extend_left1 n M M' eta : left_orthonormal psi eta ->
  (forall i1 j1 i2 j2, in_range (rows 1) i1 -> in_range (rows 1) j1 -> in_range (rows n) i2 -> in_range (rows n) j2 ->
     M' (i1 ++ i2) (j1 ++ j2) = id_op i1 j1 * M i2 j2) ->
  section_mean psi (1 + n) M' = rinj eta * section_mean psi n M.
Proof.
  intros HL HM. rewrite !section_gTM, (sites_cells 1 n).
  transitivity (sum D (fun x => sum D (fun c => sum D (fun d => lw x * TM (sites 0 2) (sites 0 2) (nn 2) x x c d *
    sum D (fun z => gTM (sites 0 (2 * n)) M c d z z))))).
  { apply sum_ext. intros x Hx.
    transitivity (sum D (fun z => sum D (fun c => sum D (fun d => lw x * TM (sites 0 2) (sites 0 2) (nn 2) x x c d * gTM (sites 0 (2 * n)) M c d z z)))).
    - apply sum_ext. intros z Hz. rewrite (gTM_app D (sites 0 (2 * 1)) id_op D (sites 0 (2 * n)) M D M' x x z z (linkedD 1) (linkedD n) Hx Hx HM).
      rewrite sum_mul_l. apply sum_ext. intros c Hc. rewrite sum_mul_l. apply sum_ext. intros d Hd. rewrite gTM_id. cbn [Nat.mul Nat.add]. ring.
    - rewrite sum_swap. apply sum_ext. intros c Hc. rewrite sum_swap. apply sum_ext. intros d Hd. rewrite sum_mul_l. reflexivity. }
  transitivity (sum D (fun c => sum D (fun d => sum D (fun x => lw x * TM (sites 0 2) (sites 0 2) (nn 2) x x c d) *
     sum D (fun z => gTM (sites 0 (2 * n)) M c d z z)))).
  { rewrite sum_swap. apply sum_ext. intros c Hc. rewrite sum_swap. apply sum_ext. intros d Hd. rewrite sum_mul_r. reflexivity. }
  rewrite sum_mul_l. apply sum_ext. intros c Hc.
  transitivity (sum D (fun d => (rinj eta * lw d * sum D (fun z => gTM (sites 0 (2 * n)) M c d z z)) * delta c d)).
  - apply sum_ext. intros d Hd.
    transitivity (rinj eta * delta c d * (rinj (nth c (ilB psi) 0%R) * rinj (nth d (ilB psi) 0%R)) * sum D (fun z => gTM (sites 0 (2 * n)) M c d z z)).
    + f_equal. rewrite <- (HL c d) by (rewrite HlB; assumption). rewrite HlB, sum_mul_r. apply sum_ext. intros x Hx.
      rewrite TM_nn, sumcfg_mul_l, sumcfg_mul_r. rewrite cell_dims_sites. apply sumcfg_ext. intros is His.
      rewrite !chain_cell by assumption. unfold lw. rewrite rinj_sq, !kconj_mul, !rinj_conj. ring.
    + unfold lw, delta. destruct (Nat.eqb_spec c d) as [->|_]; [rewrite rinj_mul|]; ring.
  - rewrite (sum_delta_r' D c (fun d => rinj eta * lw d * sum D (fun z => gTM (sites 0 (2 * n)) M c d z z))) by exact Hc.
    rewrite <- sum_mul_l. ring.
Qed.

Lemma extend_right1 n M M' eta : right_orthonormal psi eta ->
  (forall i1 j1 i2 j2, in_range (rows n) i1 -> in_range (rows n) j1 -> in_range (rows 1) i2 -> in_range (rows 1) j2 ->
     M' (i1 ++ i2) (j1 ++ j2) = M i1 j1 * id_op i2 j2) ->
  section_mean psi (n + 1) M' = rinj eta * section_mean psi n M.
Proof.
  intros HR HM. rewrite !section_gTM, (sites_cells n 1). rewrite sum_mul_l. apply sum_ext. intros x Hx. rewrite sum_mul_l.
  transitivity (sum D (fun z => sum D (fun c => sum D (fun d => lw x * gTM (sites 0 (2 * n)) M x x c d * TM (sites 0 2) (sites 0 2) (nn 2) c d z z)))).
  { apply sum_ext. intros z Hz. rewrite (gTM_app D (sites 0 (2 * n)) M D (sites 0 (2 * 1)) id_op D M' x x z z (linkedD n) (linkedD 1) Hx Hx HM).
    rewrite sum_mul_l. apply sum_ext. intros c Hc. rewrite sum_mul_l. apply sum_ext. intros d Hd. rewrite gTM_id. cbn [Nat.mul Nat.add]. ring. }
  rewrite sum_swap. apply sum_ext. intros c Hc. rewrite sum_swap.
  transitivity (sum D (fun d => (rinj eta * (lw x * gTM (sites 0 (2 * n)) M x x c d)) * delta c d)).
  - apply sum_ext. intros d Hd. rewrite <- sum_mul_l.
    assert (HRd : sum D (fun z => TM (sites 0 2) (sites 0 2) (nn 2) c d z z) = rinj eta * delta c d).
    { rewrite <- (HR c d) by (rewrite HlB; assumption). rewrite HlB. apply sum_ext. intros z Hz. rewrite TM_nn, cell_dims_sites, cells_sites. reflexivity. }
    rewrite HRd. ring.
  - rewrite (sum_delta_r' D c (fun d => rinj eta * (lw x * gTM (sites 0 (2 * n)) M x x c d))) by exact Hc. reflexivity.
Qed.

Lemma extend_pair m c n k M eL eR : orthoL m eL -> orthoR n eR -> (k + 1 < 2 * c)%nat ->
  section_mean psi (m + c + n) (pair_op (2 * m + k) (cell_dims psi (m + c + n)) M) =
  kpow (rinj eL) m * kpow (rinj eR) n * section_mean psi c (pair_op k (cell_dims psi c) M).
Proof.
  intros HL HR Hk. rewrite !cell_dims_sites.
  assert (Lr : forall n is, in_range (rows n) is -> length is = (2 * n)%nat).
  { intros q is H. apply in_range_length in H. rewrite H. unfold rows. rewrite length_pdims. apply sites_length. }
  assert (A1 : forall n, orthoR n eR -> section_mean psi (c + n) (pair_op k (rows (c + n)) M) = kpow (rinj eR) n * section_mean psi c (pair_op k (rows c) M)).
  { clear HR n. intros n HR. induction n as [|n IH]; [rewrite Nat.add_0_r; cbn [kpow]; ring|].
    assert (HRR : right_orthonormal psi eR) by (destruct HR as [H|H]; [discriminate H|exact H]).
    replace (c + S n)%nat with ((c + n) + 1)%nat by lia. rewrite (extend_right1 (c + n) (pair_op k (rows (c + n)) M) _ eR HRR).
    - rewrite IH by (right; exact HRR). cbn [kpow]. ring.
    - intros i1 j1 i2 j2 Hi1 Hj1 Hi2 Hj2.
      assert (Er : rows (c + n + 1) = rows (c + n) ++ rows 1) by (unfold rows; rewrite (sites_cells (c + n) 1), pdims_app; reflexivity).
      rewrite Er. clear Er. pose proof (Lr _ _ Hi1) as L1. pose proof (Lr _ _ Hj1) as L2.
      assert (L3 : length (rows (c + n)) = (2 * (c + n))%nat) by (unfold rows; rewrite length_pdims; apply sites_length).
      clear - L1 L2 L3 Hk. assert (Hk2 : (k + 1 < 2 * (c + n))%nat) by lia. clear Hk. revert L1 L2 L3 Hk2. generalize (2 * (c + n))%nat (rows (c + n)) (rows 1). intros q ds e.
      revert k q ds i1 j1. induction k as [|k IH]; intros q ds i1 j1 L1 L2 L3 Hk2.
      + destruct i1 as [|a [|a' i1]], j1 as [|b [|b' j1]], ds as [|d [|d' ds]]; cbn [length] in *; try lia.
        cbn [app pair_op]. rewrite id_op_app by lia. ring.
      + destruct i1 as [|a i1], j1 as [|b j1], ds as [|d ds]; cbn [length] in *; try lia. cbn [app pair_op].
        rewrite (IH (q - 1)%nat) by lia. ring. }
  induction m as [|m IH].
  - change (2 * 0 + k)%nat with k. change (0 + c + n)%nat with (c + n)%nat. fold (rows (c + n)). rewrite (A1 n HR). unfold rows. cbn [kpow]. ring.
  - assert (HLL : left_orthonormal psi eL) by (destruct HL as [H|H]; [discriminate H|exact H]).
    replace (S m + c + n)%nat with (1 + (m + c + n))%nat by lia.
    rewrite (extend_left1 (m + c + n) (pair_op (2 * m + k) (rows (m + c + n)) M) _ eL HLL).
    + fold (rows (m + c + n)) in IH. rewrite IH by (right; exact HLL). cbn [kpow]. ring.
    + intros i1 j1 i2 j2 Hi1 Hj1 Hi2 Hj2. unfold rows. rewrite (sites_cells 1 (m + c + n)), pdims_app.
      pose proof (Lr _ _ Hi1) as L1. pose proof (Lr _ _ Hj1) as L2. replace (2 * S m + k)%nat with (2 + (2 * m + k))%nat by lia.
      destruct i1 as [|a [|a' [|? ?]]], j1 as [|b [|b' [|? ?]]]; cbn [length] in L1, L2; try lia.
      cbn [sites seq map pdims app Nat.mul Nat.add pair_op id_op]. ring.
Qed.

(** *** Mean values *)
Definition extL (m : nat) : Prop := m = 0%nat \/ left_ok psi.
Definition extR (n : nat) : Prop := n = 0%nat \/ right_ok psi.
Lemma extL_ortho m : extL m -> exists e, (0 < e)%R /\ orthoL m e.
Proof. intros [H|(e & He & H)]; [exists 1%R; split; [lra|left; exact H]|exists e; split; [exact He|right; exact H]]. Qed.
Lemma extR_ortho n : extR n -> exists e, (0 < e)%R /\ orthoR n e.
Proof. intros [H|(e & He & H)]; [exists 1%R; split; [lra|left; exact H]|exists e; split; [exact He|right; exact H]]. Qed.

Lemma mean_product m c n g x : extL m -> extR n -> (forall k, (k < 2 * c)%nat -> op_fits (g k) (phys k)) ->
  secT (2 * c) (nn (2 * c)) <> 0 -> x * secT (2 * c) (nn (2 * c)) = secT (2 * c) (gops g (2 * c)) ->
  is_mean psi (m + c + n) (product_op 0 (fun k => if (Nat.leb (2 * m) k && Nat.ltb k (2 * m + 2 * c))%bool then op_of (g (k - 2 * m)%nat) else delta)) x.
Proof.
  intros HL HR Hg Hn Hx. destruct (extL_ortho m HL) as (eL & HeL & HL'). destruct (extR_ortho n HR) as (eR & HeR & HR').
  unfold is_mean. rewrite (extend_id m c n eL eR HL' HR'). rewrite (extend_product m c n eL eR g HL' HR' Hg). split.
  - apply kmul_nonzero; [|exact Hn]. apply kmul_nonzero; apply kpow_nonzero; assumption.
  - rewrite <- Hx. ring.
Qed.

Lemma is_mean_ext N M M' x : (forall is js, in_range (cell_dims psi N) is -> in_range (cell_dims psi N) js -> M is js = M' is js) -> is_mean psi N M x -> is_mean psi N M' x.
Proof.
  intros H [H1 H2]. split; [exact H1|]. rewrite H2. unfold section_mean. apply sum_ext. intros a Ha. apply sum_ext. intros b Hb.
  unfold melem. apply sumcfg_ext. intros is His. apply sumcfg_ext. intros js Hjs. rewrite (H is js His Hjs). reflexivity.
Qed.

Lemma mean_string m c n Opi Opm Opj i j x : extL m -> extR n -> (i < j)%nat -> (j < 2 * c)%nat ->
  (forall k, (k <= j)%nat -> op_fits (opf Opi Opm Opj i j k) (phys k)) ->
  secT (2 * c) (nn (2 * c)) <> 0 -> x * secT (2 * c) (nn (2 * c)) = secT (2 * c) (gops (opf Opi Opm Opj i j) (2 * c)) ->
  is_mean psi (m + c + n) (string_op (2 * m + i) (2 * m + j) (op_of Opi) (op_of Opm) (op_of Opj)) x.
Proof.
  intros HL HR Hij Hj Hop Hn Hx.
  assert (Hg : forall k, (k < 2 * c)%nat -> op_fits (opf Opi Opm Opj i j k) (phys k)).
  { intros k _. destruct (Nat.leb_spec k j); [apply Hop; assumption|]. left. unfold opf.
    destruct (Nat.eqb_spec k i); [lia|]. destruct (Nat.eqb_spec k j); [lia|]. destruct (Nat.ltb_spec k j); [lia|]. rewrite andb_false_r. reflexivity. }
  refine (is_mean_ext _ _ _ _ _ (mean_product m c n (opf Opi Opm Opj i j) x HL HR Hg Hn Hx)).
  intros is js His Hjs. unfold string_op. apply product_op_ext. intros k a b _. unfold opf.
  destruct (Nat.leb_spec (2 * m) k); cbn [andb].
  - destruct (Nat.ltb_spec k (2 * m + 2 * c)).
    + destruct (Nat.eqb_spec (k - 2 * m) i), (Nat.eqb_spec k (2 * m + i)); try lia; [reflexivity|].
      destruct (Nat.eqb_spec (k - 2 * m) j), (Nat.eqb_spec k (2 * m + j)); try lia; [reflexivity|].
      destruct (Nat.ltb_spec i (k - 2 * m)), (Nat.ltb_spec (2 * m + i) k); try lia; [|reflexivity].
      destruct (Nat.ltb_spec (k - 2 * m) j), (Nat.ltb_spec k (2 * m + j)); try lia; reflexivity.
    + destruct (Nat.eqb_spec k (2 * m + i)); [lia|]. destruct (Nat.eqb_spec k (2 * m + j)); [lia|].
      destruct (Nat.ltb_spec k (2 * m + j)); [lia|]. rewrite andb_false_r. reflexivity.
  - destruct (Nat.eqb_spec k (2 * m + i)); [lia|]. destruct (Nat.eqb_spec k (2 * m + j)); [lia|].
    destruct (Nat.ltb_spec (2 * m + i) k); [lia|]. reflexivity.
Qed.

(** do_string_order_many *)


Lemma mean_site m c n g i x (O : nat -> nat -> K) : extL m -> extR n -> (i < 2 * c)%nat -> op_fits g (phys i) ->
  (forall a b, (a < phys i)%nat -> (b < phys i)%nat -> op_of g a b = O a b) ->
  secT (2 * c) (nn (2 * c)) <> 0 -> x * secT (2 * c) (nn (2 * c)) = secT (2 * c) (gops (fun k => if Nat.eqb k i then g else empty) (2 * c)) ->
  is_mean psi (m + c + n) (site_op (2 * m + i) O) x.
Proof.
  intros HL HR Hi Hop HO Hn Hx.
  assert (Hg : forall k, (k < 2 * c)%nat -> op_fits (if Nat.eqb k i then g else empty) (phys k)).
  { intros k _. destruct (Nat.eqb_spec k i) as [->|_]; [exact Hop|left; reflexivity]. }
  refine (is_mean_ext _ _ _ _ _ (mean_product m c n _ x HL HR Hg Hn Hx)).
  intros is js His Hjs. rewrite cell_dims_sites in His, Hjs.
  assert (Li : length is = (2 * (m + c + n))%nat) by (rewrite (in_range_length _ _ His), length_pdims; apply sites_length).
  assert (Lj : length js = (2 * (m + c + n))%nat) by (rewrite (in_range_length _ _ Hjs), length_pdims; apply sites_length).
  transitivity (product_op 0 (fun k => if Nat.eqb k (0 + (2 * m + i)) then op_of g else delta) is js).
  { apply product_op_ext. intros k a b _. cbn [Nat.add].
    destruct (Nat.leb_spec (2 * m) k); cbn [andb].
    - destruct (Nat.ltb_spec k (2 * m + 2 * c)).
      + destruct (Nat.eqb_spec (k - 2 * m) i), (Nat.eqb_spec k (2 * m + i)); try lia; reflexivity.
      + destruct (Nat.eqb_spec k (2 * m + i)); [lia|reflexivity].
    - destruct (Nat.eqb_spec k (2 * m + i)); [lia|reflexivity]. }
  rewrite product_op_site by lia.
  assert (Hr : nth (2 * m + i) (pdims (sites 0 (2 * (m + c + n)))) 0%nat = phys i).
  { rewrite pdims_sites. rewrite (nth_indep _ 0%nat (phys 0)) by (rewrite map_length, seq_length; lia). rewrite map_nth, seq_nth by lia. unfold phys.
    rewrite Nat.odd_add, Nat.odd_add, Nat.odd_mul. cbn [Nat.odd negb Nat.even andb xorb]. destruct (Nat.odd i); reflexivity. }
  assert (Hs : forall q ds is js, in_range ds is -> in_range ds js -> nth q ds 0%nat = phys i -> site_op q (op_of g) is js = site_op q O is js).
  { clear - HO. induction q as [|q IH]; intros ds is js Hi Hj Hr; (destruct ds as [|d ds]; [apply in_range_nil_inv in Hi, Hj; subst; reflexivity|]);
    apply in_range_cons_inv in Hi; destruct Hi as (a & is1 & -> & Ha & His); apply in_range_cons_inv in Hj; destruct Hj as (b & js1 & -> & Hb & Hjs);
    cbn [site_op nth] in *.
    - subst d. rewrite HO by assumption. reflexivity.
    - rewrite (IH ds) by assumption. reflexivity. }
  apply (Hs (2 * m + i)%nat (pdims (sites 0 (2 * (m + c + n))))); assumption.
Qed.

Lemma phys_shift m k : phys (2 * m + k) = phys k.
Proof. unfold phys. rewrite Nat.odd_add, Nat.odd_mul. cbn [Nat.odd negb Nat.even andb xorb]. destruct (Nat.odd k); reflexivity. Qed.

(** do_string_order_many *)
Lemma many_value Opi Opm Opj OO N k m n x : extL m -> extR n -> (k < N)%nat ->
  is_matrix Opi (phys 0) (phys 0) -> (forall q, (0 < q)%nat -> (q < N)%nat -> is_matrix Opj (phys q) (phys q)) ->
  (forall q, (0 < q)%nat -> (q + 1 < N)%nat -> op_fits Opm (phys q)) ->
  is_matrix Opj (phys 0) (phys 0) -> mmult_op Opi Opj = Ok OO ->
  val Opi Opm Opj OO k = Ok x ->
  is_mean psi (m + (k / 2 + 1) + n)
    (if Nat.eqb k 0 then site_op (2 * m) (fun a b => sum (phys 0) (fun c => mat Opi a c * mat Opj c b))
     else string_op (2 * m) (2 * m + k) (op_of Opi) (op_of Opm) (op_of Opj)) x.
Proof.
  intros HL HR Hk Hi Hj Hm Hj0 HOO Hx.
  assert (Hjk : is_matrix Opj (phys k) (phys k)) by (destruct k as [|k]; [exact Hj0|apply Hj; lia]).
  assert (HO : is_matrix OO (phys 0) (phys 0) /\ forall a b, (a < phys 0)%nat -> (b < phys 0)%nat -> op_of OO a b = sum (phys 0) (fun c => mat Opi a c * mat Opj c b)).
  { unfold mmult_op in HOO. destruct (is_empty Opi || is_empty Opj)%bool; [discriminate|]. apply Ok_inj' in HOO. subst OO.
    destruct Hi as [Hid Hiw], Hj0 as [Hjd Hjw].
    assert (Hd : dims (mmult Opi Opj) = [phys 0; phys 0]) by (unfold mmult, fold, rank; rewrite Hid, Hjd; reflexivity).
    split; [split; [exact Hd|apply wf_mk]|]. intros a b Ha Hb. unfold op_of.
    assert (He : is_empty (mmult Opi Opj) = false).
    { apply (matrix_nonempty (mmult Opi Opj) (phys 0)); [split; [exact Hd|apply wf_mk]|lia]. }
    rewrite He. unfold mat. rewrite (get_mmult Opi Opj (phys 0) (phys 0) (phys 0) a b); auto. }
  destruct HO as [HOm HOg].
  assert (Hf : forall q, (q < 2 * (k / 2 + 1))%nat -> op_fits (if Nat.eqb k 0 then (if Nat.eqb q 0 then OO else empty) else opf Opi Opm Opj 0 k q) (phys q)).
  { intros q Hq. destruct (Nat.eqb_spec k 0).
    - destruct (Nat.eqb_spec q 0) as [->|]; [right; exact HOm|left; reflexivity].
    - unfold opf. destruct (Nat.eqb_spec q 0) as [->|]; [right; exact Hi|]. destruct (Nat.eqb_spec q k) as [->|]; [right; exact Hjk|].
      destruct (Nat.ltb_spec q k); [|rewrite andb_false_r; left; reflexivity]. destruct (Nat.ltb_spec 0 q); [|left; reflexivity]. cbn [andb].
      apply Hm; lia. }
  assert (Hfin : fin Opi Opm Opj OO k = map (fun q => if Nat.eqb k 0 then (if Nat.eqb q 0 then OO else empty) else opf Opi Opm Opj 0 k q) (seq 0 (2 * (k / 2 + 1)))).
  { destruct (Nat.eqb_spec k 0) as [->|]; [reflexivity|]. apply fin_opf. lia. }
  assert (Hfit : fits 0 (fin Opi Opm Opj OO k)).
  { rewrite Hfin. set (g := fun q => if Nat.eqb k 0 then (if Nat.eqb q 0 then OO else empty) else opf Opi Opm Opj 0 k q) in *.
    assert (G : forall r s, (s + r <= 2 * (k / 2 + 1))%nat -> fits s (map g (seq s r))).
    { induction r as [|r IH]; intros s Hs; [exact I|]. cbn [seq map fits]. split; [apply Hf; lia|apply IH; lia]. }
    apply G. lia. }
  rewrite val_secT in Hx by exact Hfit. apply kdiv_inv in Hx. destruct Hx as [Hn Hx].
  assert (Lf : length (fin Opi Opm Opj OO k) = (2 * (k / 2 + 1))%nat) by (rewrite Hfin, map_length, seq_length; reflexivity).
  rewrite Lf in *. rewrite Hfin in Hx.
  destruct (Nat.eqb_spec k 0) as [Hk0|Hk0].
  - replace (2 * m)%nat with (2 * m + 0)%nat by lia. apply (mean_site m (k / 2 + 1) n OO 0 x); auto; [lia|right; exact HOm].
  - replace (2 * m)%nat with (2 * m + 0)%nat at 1 by lia.
    apply (mean_string m (k / 2 + 1) n Opi Opm Opj 0 k x); auto; [lia| |].
    + rewrite double_half. destruct (Nat.odd k); lia.
    + intros q Hq. apply Hf. rewrite double_half. destruct (Nat.odd k); lia.
Qed.

(** do_string_order for i < j *)
Lemma string_value Opi Opm Opj i j fuel m n x : extL m -> extR n -> inner_ok psi -> (i < j)%nat -> (nloop j <= fuel)%nat ->
  op_fits Opi (phys i) -> op_fits Opj (phys j) -> (forall q, (i < q < j)%nat -> op_fits Opm (phys q)) ->
  string_loop fuel psi Opi Opm Opj (Z.of_nat i) (Z.of_nat j) 0 (left_boundary psi 0) (left_boundary psi 0) = Ok x ->
  is_mean psi (m + (j / 2 + 1 + (if Nat.odd j then 1 else 0)) + n) (string_op (2 * m + i) (2 * m + j) (op_of Opi) (op_of Opm) (op_of Opj)) x.
Proof.
  intros HL HR (eI & HeI & HI) Hij Hf Hi Hj Hm Hx.
  assert (Hop : forall k, (k <= j)%nat -> op_fits (opf Opi Opm Opj i j k) (phys k)).
  { intros k Hk. unfold opf. destruct (Nat.eqb_spec k i) as [->|]; [exact Hi|]. destruct (Nat.eqb_spec k j) as [->|]; [exact Hj|].
    destruct (Nat.ltb_spec i k); [|left; reflexivity]. destruct (Nat.ltb_spec k j); [|left; reflexivity]. cbn [andb]. apply Hm. lia. }
  rewrite (string_loop_value Opi Opm Opj i j fuel Hop Hf) in Hx by lia. apply kdiv_inv in Hx. destruct Hx as [Hn Hx].
  set (c := (j / 2 + 1 + (if Nat.odd j then 1 else 0))%nat).
  assert (Hc : (2 * c = nloop j + 1)%nat).
  { unfold c, nloop. pose proof (double_half j) as Hd. revert Hd. clear. destruct (Nat.odd j); lia. }
  assert (Hodd : exists q, nloop j = (2 * q + 1)%nat /\ (2 * c = 2 * q + 2)%nat) by (exists (c - 1)%nat; lia).
  destruct Hodd as (q & Hq & Hcq).
  assert (Hall : forall k, op_fits (opf Opi Opm Opj i j k) (phys k)).
  { intros k. destruct (Nat.leb_spec k j); [apply Hop; assumption|]. left. unfold opf.
    destruct (Nat.eqb_spec k i); [lia|]. destruct (Nat.eqb_spec k j); [lia|]. destruct (Nat.ltb_spec k j); [lia|]. rewrite andb_false_r. reflexivity. }
  assert (Hg : gops (opf Opi Opm Opj i j) (2 * c) = gops (opf Opi Opm Opj i j) (2 * q + 1) ++ [None]).
  { rewrite Hcq. replace (2 * q + 2)%nat with (S (2 * q + 1)) by lia. unfold gops. rewrite seq_S, !map_app. f_equal. cbn [map Nat.add]. f_equal.
    unfold opf. unfold nloop in Hq. assert ((j < 2 * q + 1)%nat) by (clear - Hq; destruct (Nat.odd j); lia).
    destruct (Nat.eqb_spec (2 * q + 1) i); [lia|]. destruct (Nat.eqb_spec (2 * q + 1) j); [lia|]. destruct (Nat.ltb_spec (2 * q + 1) j); [lia|]. rewrite andb_false_r. reflexivity. }
  assert (S1 : secT (2 * c) (nn (2 * c)) = rinj eI * secT (2 * q + 1) (nn (2 * q + 1))).
  { rewrite Hcq. assert (En : nn (2 * q + 2) = nn (2 * q + 1) ++ [None]) by (replace (2 * q + 2)%nat with (2 * q + 1 + 1)%nat by lia; apply nn_app). rewrite En.
    apply (secT_inner q _ eI HI). apply ops_ok_nn. }
  assert (S2 : secT (2 * c) (gops (opf Opi Opm Opj i j) (2 * c)) = rinj eI * secT (2 * q + 1) (gops (opf Opi Opm Opj i j) (2 * q + 1))).
  { rewrite Hg, Hcq. apply (secT_inner q _ eI HI). apply ops_ok_gops. intros k _. apply Hall. }
  rewrite Hq in Hn, Hx.
  apply (mean_string m c n Opi Opm Opj i j x HL HR Hij); [unfold nloop in Hc; clear - Hc; clearbody c; destruct (Nat.odd j); lia|exact Hop| |].
  - rewrite S1. apply kmul_nonzero; [|exact Hn]. pose proof (kpow_nonzero eI 1 HeI) as H. cbn [kpow] in H. intros H0. apply H. rewrite H0. ring.
  - rewrite S1, S2, <- Hx. ring.
Qed.
End Chain.
End Facts.
