(** * QuadraticForm: the cached environments *)
From Coq Require Import Bool List Arith ZArith Lia Ring.
From Verif Require Import Scalar ScalarFacts Tensor TensorFacts Spec MpsModel MpsFacts EnvFacts ExpectedFacts MpoSpec MpoFacts FormModel FormSpec LFormFacts.
Import ListNotations.
Local Open Scope K_scope.

Section Facts.
Context {SC : Scalar}.
Add Ring Kring : k_ring.

(** ** Segments of <bra| O |ket> *)
Definition QM (b p : mps) (O : mpo) (x y m z w n : nat) : K :=
  sumcfg (pdims b) (fun is => sumcfg (pdims p) (fun js =>
    kconj (chain b is x z) * mchain O is js m n * chain p js y w)).

Lemma mchain_app l O1 m O2 r i1 j1 i2 j2 a b :
  mlinked l O1 m -> mlinked m O2 r -> length i1 = length O1 -> length j1 = length O1 -> (a < l)%nat ->
  mchain (O1 ++ O2) (i1 ++ i2) (j1 ++ j2) a b = sum m (fun c => mchain O1 i1 j1 a c * mchain O2 i2 j2 c b).
Proof.
  revert l i1 j1 a. induction O1 as [|A O1 IH]; intros l i1 j1 a H1 H2 Hi Hj Ha; cbn in H1.
  - subst m. destruct i1; [|discriminate]. destruct j1; [|discriminate]. cbn [app mchain].
    rewrite sum_delta_l' by assumption. reflexivity.
  - destruct H1 as (d & e & c & HA & _ & _ & _ & Hc & H1).
    destruct i1 as [|i i1]; [discriminate|]. destruct j1 as [|j j1]; [discriminate|]. cbn [app mchain length] in *.
    unfold dim. rewrite HA. cbn [nth].
    transitivity (sum c (fun k => get A [a; i; j; k] * sum m (fun c0 => mchain O1 i1 j1 k c0 * mchain O2 i2 j2 c0 b))).
    + apply sum_ext. intros k Hk. rewrite (IH c) by (try assumption; lia). reflexivity.
    + transitivity (sum c (fun k => sum m (fun c0 => get A [a; i; j; k] * mchain O1 i1 j1 k c0 * mchain O2 i2 j2 c0 b))).
      * apply sum_ext. intros k Hk. rewrite sum_mul_l. apply sum_ext. intros c0 Hc0. ring.
      * rewrite sum_swap. apply sum_ext. intros c0 Hc0. rewrite sum_mul_r. reflexivity.
Qed.

Lemma sumcfg4_factor3 ds1 ds2 es1 es2 m n o
  (f g : nat -> nat -> nat -> list nat -> list nat -> K) :
  sumcfg ds1 (fun i1 => sumcfg ds2 (fun i2 => sumcfg es1 (fun j1 => sumcfg es2 (fun j2 =>
     sum m (fun c => sum n (fun d => sum o (fun e => f c d e i1 j1 * g c d e i2 j2))))))) =
  sum m (fun c => sum n (fun d => sum o (fun e =>
     sumcfg ds1 (fun i1 => sumcfg es1 (fun j1 => f c d e i1 j1)) *
     sumcfg ds2 (fun i2 => sumcfg es2 (fun j2 => g c d e i2 j2))))).
Proof.
  transitivity (sumcfg ds1 (fun i1 => sumcfg ds2 (fun i2 => sumcfg es1 (fun j1 => sumcfg es2 (fun j2 =>
     sum o (fun e => sum m (fun c => sum n (fun d => f c d e i1 j1 * g c d e i2 j2)))))))).
  - apply sumcfg_ext; intros i1 _. apply sumcfg_ext; intros i2 _. apply sumcfg_ext; intros j1 _. apply sumcfg_ext; intros j2 _.
    symmetry. rewrite sum_swap. apply sum_ext. intros c _. rewrite sum_swap. reflexivity.
  - transitivity (sum o (fun e => sumcfg ds1 (fun i1 => sumcfg ds2 (fun i2 => sumcfg es1 (fun j1 => sumcfg es2 (fun j2 =>
     sum m (fun c => sum n (fun d => f c d e i1 j1 * g c d e i2 j2)))))))).
    + rewrite <- sumcfg_sum_swap. apply sumcfg_ext; intros i1 _. rewrite <- sumcfg_sum_swap. apply sumcfg_ext; intros i2 _.
      rewrite <- sumcfg_sum_swap. apply sumcfg_ext; intros j1 _. rewrite <- sumcfg_sum_swap. reflexivity.
    + transitivity (sum o (fun e => sum m (fun c => sum n (fun d =>
        sumcfg ds1 (fun i1 => sumcfg es1 (fun j1 => f c d e i1 j1)) * sumcfg ds2 (fun i2 => sumcfg es2 (fun j2 => g c d e i2 j2)))))).
      * apply sum_ext. intros e _. apply (sumcfg4_factor ds1 ds2 es1 es2 m n (fun c d => f c d e) (fun c d => g c d e)).
      * rewrite sum_swap. apply sum_ext. intros c _. rewrite sum_swap. reflexivity.
Qed.

Lemma QM_app la lb lo b1 p1 O1 ma mb mo b2 p2 O2 ra rb ro x y m z w n :
  linked la b1 ma -> linked lb p1 mb -> mlinked lo O1 mo -> linked ma b2 ra -> linked mb p2 rb -> mlinked mo O2 ro ->
  length b1 = length O1 -> length p1 = length O1 -> (x < la)%nat -> (y < lb)%nat -> (m < lo)%nat ->
  QM (b1 ++ b2) (p1 ++ p2) (O1 ++ O2) x y m z w n =
  sum ma (fun c => sum mb (fun d => sum mo (fun e => QM b1 p1 O1 x y m c d e * QM b2 p2 O2 c d e z w n))).
Proof.
  intros H1 H2 H3 H4 H5 H6 L1 L2 Hx Hy Hm. unfold QM. rewrite !pdims_app. rewrite sumcfg_app.
  transitivity (sumcfg (pdims b1) (fun i1 => sumcfg (pdims b2) (fun i2 =>
    sumcfg (pdims p1) (fun j1 => sumcfg (pdims p2) (fun j2 =>
      sum ma (fun c => sum mb (fun d => sum mo (fun e => 
        (kconj (chain b1 i1 x c) * mchain O1 i1 j1 m e * chain p1 j1 y d) *
        (kconj (chain b2 i2 c z) * mchain O2 i2 j2 e n * chain p2 j2 d w))))))))).
  - apply sumcfg_ext. intros i1 Hi1. apply sumcfg_ext. intros i2 Hi2.
    rewrite sumcfg_app. apply sumcfg_ext. intros j1 Hj1. apply sumcfg_ext. intros j2 Hj2.
    apply in_range_length in Hi1, Hj1. rewrite length_pdims in Hi1, Hj1.
    rewrite (chain_app la b1 ma b2 ra) by assumption.
    rewrite (chain_app lb p1 mb p2 rb) by assumption.
    rewrite (mchain_app lo O1 mo O2 ro) by (try assumption; lia).
    rewrite sum_conj, !sum_mul_r. apply sum_ext. intros c Hc.
    rewrite sum_mul_l. apply sum_ext. intros d Hd. rewrite sum_mul_l, sum_mul_r. apply sum_ext. intros e He. rewrite kconj_mul. ring.
  - apply (sumcfg4_factor3 (pdims b1) (pdims b2) (pdims p1) (pdims p2) ma mb mo
      (fun c d e i1 j1 => kconj (chain b1 i1 x c) * mchain O1 i1 j1 m e * chain p1 j1 y d)
      (fun c d e i2 j2 => kconj (chain b2 i2 c z) * mchain O2 i2 j2 e n * chain p2 j2 d w)).
Qed.

(** the operator of a pair *)
Definition blk (t : tensor) (m n : nat) : tensor := p_op (new_pair m n t).

Lemma blk_get t m n i j l d e c : dims t = [l; d; e; c] -> (i < d)%nat -> (j < e)%nat ->
  get (blk t m n) [i; j] = get t [m; i; j; n].
Proof.
  intros H Hi Hj. unfold blk, new_pair, dim. rewrite H. cbn [p_op nth]. rewrite get_mk by (apply in_range_2; assumption). reflexivity.
Qed.

Lemma blk_dims t m n l d e c : dims t = [l; d; e; c] -> dims (blk t m n) = [d; e].
Proof. intros H. unfold blk, new_pair, dim. rewrite H. reflexivity. Qed.

Lemma QM_single A B t x y m z w n l1 d1 c1 l2 d2 c2 l c :
  dims A = [l1; d1; c1] -> dims B = [l2; d2; c2] -> dims t = [l; d1; d2; c] -> (z < c1)%nat -> (w < c2)%nat -> (n < c)%nat ->
  QM [A] [B] [t] x y m z w n = E1 A B (Some (blk t m n)) x y z w.
Proof.
  intros HA HB Ht Hz Hw Hn. unfold QM, E1, dim. cbn [pdims map]. unfold dim. rewrite HA, HB. cbn [nth sumcfg].
  apply sum_ext. intros i Hi. apply sum_ext. intros j Hj. cbn [chain mchain opel]. unfold dim. rewrite HA, HB, Ht. cbn [nth].
  rewrite !sum_delta_r by assumption. rewrite (blk_get t m n i j l d1 d2 c) by assumption. reflexivity.
Qed.

(** ** Tensors where "empty" stands for zero *)
Definition vten (ds : list nat) (M : tensor) (F : list nat -> K) : Prop :=
  (is_empty M = true /\ forall x, in_range ds x -> F x = 0) \/
  (is_empty M = false /\ wf M /\ dims M = ds /\ forall x, in_range ds x -> get M x = F x).

Lemma vten_elem ds M F x : vten ds M F -> in_range ds x -> elem M x = F x.
Proof. intros [(E & H)|(E & _ & _ & H)] Hx; unfold elem; rewrite E; [symmetry|]; apply H; exact Hx. Qed.

Lemma vten_ext ds M F G : vten ds M F -> (forall x, in_range ds x -> F x = G x) -> vten ds M G.
Proof.
  intros [(E & H)|(E & Hw & Hd & H)] HG; [left|right].
  - split; [exact E|]. intros x Hx. rewrite <- HG by exact Hx. auto.
  - repeat split; auto. intros x Hx. rewrite H, HG by exact Hx. reflexivity.
Qed.

Lemma vten_empty ds : vten ds empty (fun _ => 0).
Proof. left. split; [reflexivity|auto]. Qed.

Lemma vten_add ds M F t G : nprod ds <> 0%nat -> vten ds M F -> wf t -> dims t = ds -> (forall x, in_range ds x -> get t x = G x) ->
  vten ds (maybe_add M t) (fun x => F x + G x).
Proof.
  intros Hn HM Hw Hd Hg. right. unfold maybe_add. destruct HM as [(E & H)|(E & HwM & HdM & H)]; rewrite E.
  - split; [apply is_empty_wf; [exact Hw|rewrite Hd; exact Hn]|]. repeat split; auto. intros x Hx. rewrite H, Hg by exact Hx. ring.
  - assert (wf (tadd M t)) by (apply wf_tadd; try assumption; congruence).
    split; [apply is_empty_wf; [assumption|cbn [tadd dims]; rewrite HdM; exact Hn]|]. repeat split; auto. intros x Hx. rewrite get_tadd by (try assumption; congruence). rewrite H, Hg by exact Hx. reflexivity.
Qed.

(** ** Sums over lists *)
Fixpoint lsum {A} (l : list A) (f : A -> K) : K := match l with [] => 0 | x :: l' => f x + lsum l' f end.

Lemma lsum_ext {A} (l : list A) f g : (forall x, In x l -> f x = g x) -> lsum l f = lsum l g.
Proof. induction l as [|a l IH]; intros H; [reflexivity|]. cbn. rewrite H, IH; [reflexivity| |left; reflexivity]. intros x Hx. apply H. right. exact Hx. Qed.
Lemma lsum_app {A} (l m : list A) f : lsum (l ++ m) f = lsum l f + lsum m f.
Proof. induction l as [|a l IH]; cbn; [ring|rewrite IH; ring]. Qed.
Lemma lsum_zero {A} (l : list A) f : (forall x, In x l -> f x = 0) -> lsum l f = 0.
Proof. induction l as [|a l IH]; intros H; [reflexivity|]. cbn. rewrite H, IH; [ring| |left; reflexivity]. intros x Hx. apply H. right. exact Hx. Qed.
Lemma lsum_filter {A} (l : list A) P f : (forall x, In x l -> P x = false -> f x = 0) -> lsum (filter P l) f = lsum l f.
Proof.
  induction l as [|a l IH]; intros H; [reflexivity|]. cbn. destruct (P a) eqn:E; cbn; rewrite IH; try (intros x Hx; apply H; right; exact Hx).
  - reflexivity.
  - rewrite (H a); [ring|left; reflexivity|exact E].
Qed.
Lemma lsum_map {A B} (l : list A) (h : A -> B) f : lsum (map h l) f = lsum l (fun x => f (h x)).
Proof. induction l as [|a l IH]; cbn; [reflexivity|rewrite IH; reflexivity]. Qed.
Lemma lsum_flat_map {A B} (l : list A) (h : A -> list B) f : lsum (flat_map h l) f = lsum l (fun x => lsum (h x) f).
Proof. induction l as [|a l IH]; cbn; [reflexivity|rewrite lsum_app, IH; reflexivity]. Qed.
Lemma lsum_seq n f : lsum (seq 0 n) f = sum n f.
Proof. induction n as [|n IH]; [reflexivity|]. rewrite seq_S, lsum_app, IH. cbn. ring. Qed.
Lemma lsum_mul_l {A} (l : list A) c f : c * lsum l f = lsum l (fun x => c * f x).
Proof. induction l as [|a l IH]; cbn; [ring|rewrite <- IH; ring]. Qed.

(** Sum over the pairs of a site of a function that vanishes with the operator. *)
Definition kills (d e : nat) (G : qpair -> K) : Prop :=
  forall p, (forall i j, (i < d)%nat -> (j < e)%nat -> get (p_op p) [i; j] = 0) -> G p = 0.

Lemma in_range_inv2 a b x : in_range [a; b] x -> exists i j, x = [i; j] /\ (i < a)%nat /\ (j < b)%nat.
Proof.
  intros H. apply in_range_cons_inv in H. destruct H as (i & x1 & -> & Hi & H). apply in_range_cons_inv in H. destruct H as (j & x2 & -> & Hj & H).
  apply in_range_nil_inv in H. subst. eauto.
Qed.

Lemma lsum_pairs t l d e c G : dims t = [l; d; e; c] -> kills d e G ->
  lsum (site_pairs t) G = sum l (fun m => sum c (fun n => G (new_pair m n t))).
Proof.
  intros Ht HG. unfold site_pairs. rewrite lsum_filter.
  - rewrite lsum_flat_map. replace (dim t 0) with l by (unfold dim; rewrite Ht; reflexivity).
    replace (dim t 3) with c by (unfold dim; rewrite Ht; reflexivity). rewrite lsum_seq. apply sum_ext. intros m Hm.
    rewrite lsum_map, lsum_seq. reflexivity.
  - intros p Hp Hz. apply negb_false_iff in Hz. apply in_flat_map in Hp. destruct Hp as (m & _ & Hp). apply in_map_iff in Hp.
    destruct Hp as (n & <- & _). apply HG. intros i j Hi Hj.
    apply (proj1 (is_zero_tensor_spec _ (wf_mk _ _)) Hz). cbn [dims mk]. unfold dim. rewrite Ht. cbn [nth]. apply in_range_2; assumption.
Qed.

Lemma site_pairs_In t l d e c p : dims t = [l; d; e; c] -> In p (site_pairs t) ->
  exists m n, (m < l)%nat /\ (n < c)%nat /\ p = new_pair m n t.
Proof.
  intros Ht Hp. unfold site_pairs in Hp. apply filter_In in Hp. destruct Hp as (Hp & _).
  apply in_flat_map in Hp. destruct Hp as (m & Hm & Hp). apply in_map_iff in Hp. destruct Hp as (n & <- & Hn).
  apply in_seq in Hm, Hn. unfold dim in Hm, Hn. rewrite Ht in Hm, Hn. cbn in Hm, Hn. exists m, n. repeat split; lia.
Qed.

(** ** One propagation *)
(** Elements of environments are addressed as [0;0;z;w] (left) or [z;w;0;0] (right). *)
Definition lenv_of (F : nat -> nat -> K) (x : list nat) : K := F (nth 2 x 0%nat) (nth 3 x 0%nat).
Definition renv_of (F : nat -> nat -> K) (x : list nat) : K := F (nth 0 x 0%nat) (nth 1 x 0%nat).

Lemma in_range_inv4 a b c d x : in_range [a; b; c; d] x -> exists i j k l, x = [i; j; k; l] /\ (i < a)%nat /\ (j < b)%nat /\ (k < c)%nat /\ (l < d)%nat.
Proof.
  intros H. apply in_range_cons_inv in H. destruct H as (i & x1 & -> & Hi & H). apply in_range_cons_inv in H. destruct H as (j & x2 & -> & Hj & H).
  apply in_range_inv2 in H. destruct H as (k & l & -> & Hk & Hl). exists i, j, k, l. auto.
Qed.

Lemma prop_right_vten M A B o ra rb da ca db cb F :
  is_empty M = false -> wf M -> dims M = [1; 1; ra; rb]%nat -> (forall z w, (z < ra)%nat -> (w < rb)%nat -> get M [0; 0; z; w]%nat = F z w) ->
  dims A = [ra; da; ca] -> dims B = [rb; db; cb] -> dims o = [da; db] ->
  wf (prop_matrix M 1 A B (Some o)) /\ dims (prop_matrix M 1 A B (Some o)) = [1; 1; ca; cb]%nat /\
  forall z w, (z < ca)%nat -> (w < cb)%nat -> get (prop_matrix M 1 A B (Some o)) [0; 0; z; w]%nat =
    sum ra (fun a => sum rb (fun b => F a b * E1 A B (Some o) a b z w)).
Proof.
  intros He Hw Hd Hg HA HB Ho. unfold prop_matrix, prop_right, rank. rewrite He, Hd. cbn [Z.ltb Z.compare Nat.eqb length].
  split; [unfold prop_right4; apply wf_mk|]. split; [eapply prop_right4_dims; eauto|].
  intros z w Hz Hww. rewrite (prop_right4_get M A B (Some o) 1 1 ra rb da ca db cb); try assumption; try lia.
  apply sum_ext. intros a Ha. apply sum_ext. intros b Hb. rewrite Hg by assumption. reflexivity.
Qed.

Lemma prop_left_vten M A B o ra rb da ca cb F :
  is_empty M = false -> wf M -> dims M = [ca; cb; 1; 1]%nat -> (forall z w, (z < ca)%nat -> (w < cb)%nat -> get M [z; w; 0; 0]%nat = F z w) ->
  dims A = [ra; da; ca] -> dims B = [rb; da; cb] -> dims o = [da; da] ->
  wf (prop_matrix M (-1) A B (Some o)) /\ dims (prop_matrix M (-1) A B (Some o)) = [ra; rb; 1; 1]%nat /\
  forall z w, (z < ra)%nat -> (w < rb)%nat -> get (prop_matrix M (-1) A B (Some o)) [z; w; 0; 0]%nat =
    sum ca (fun a => sum cb (fun b => E1 A B (Some o) z w a b * F a b)).
Proof.
  intros He Hw Hd Hg HA HB Ho. unfold prop_matrix, prop_left, rank. rewrite He, Hd. cbn [Z.ltb Z.compare Nat.eqb length].
  split; [unfold prop_left4, foldc; apply wf_mk|]. split; [eapply prop_left4_dims; eauto|].
  intros z w Hz Hww. rewrite (prop_left4_get M A B (Some o) 1 1 ca cb ra da rb da); try assumption; try lia; try reflexivity.
  apply sum_ext. intros a Ha. apply sum_ext. intros b Hb. rewrite Hg by assumption. reflexivity.
Qed.

(** The loop over the pairs, from the matrices [old] to the list [new]; [src] and [tgt] select the
    indices of the pair. *)
Lemma step_pairs ds (src tgt : qpair -> nat) (old : nat -> tensor) (P : tensor -> tensor -> tensor) (G : qpair -> list nat -> K) len l :
  nprod ds <> 0%nat ->
  (forall p, In p l -> (tgt p < len)%nat /\
     if is_empty (old (src p)) then forall x, in_range ds x -> G p x = 0
     else wf (P (old (src p)) (p_op p)) /\ dims (P (old (src p)) (p_op p)) = ds /\
          forall x, in_range ds x -> get (P (old (src p)) (p_op p)) x = G p x) ->
  forall m F, length m = len -> (forall n, (n < len)%nat -> vten ds (nth n m empty) (F n)) ->
  let r := fold_left (fun m p => let M := old (src p) in if is_empty M then m
        else replace_nth (tgt p) (maybe_add (nth (tgt p) m empty) (P M (p_op p))) m) l m in
  length r = len /\
  forall n, (n < len)%nat -> vten ds (nth n r empty) (fun x => F n x + lsum l (fun p => if Nat.eqb (tgt p) n then G p x else 0)).
Proof.
  intros Hds. induction l as [|p l IH]; intros Hl m F Hm HF r.
  - split; [exact Hm|]. intros n Hn. eapply vten_ext; [apply HF; exact Hn|]. intros x _. cbn. ring.
  - destruct (Hl p (or_introl eq_refl)) as (Ht & Hp). unfold r. cbn [fold_left]. cbv zeta.
    destruct (is_empty (old (src p))) eqn:E.
    + destruct (IH (fun q Hq => Hl q (or_intror Hq)) m F Hm HF) as (I1 & I2). split; [exact I1|].
      intros n Hn. eapply vten_ext; [apply I2; exact Hn|]. intros x Hx. cbn [lsum]. rewrite Hp by exact Hx.
      destruct (Nat.eqb (tgt p) n); ring.
    + destruct Hp as (Hw & Hd & Hgt).
      set (m1 := replace_nth _ _ m).
      destruct (IH (fun q Hq => Hl q (or_intror Hq)) m1 (fun n x => F n x + if Nat.eqb (tgt p) n then G p x else 0)) as (I1 & I2).
      * unfold m1. rewrite length_replace_nth. exact Hm.
      * intros n Hn. unfold m1. destruct (Nat.eqb_spec (tgt p) n) as [<-|Hne].
        -- rewrite nth_replace_nth_eq by lia. apply vten_add; auto.
        -- rewrite nth_replace_nth_neq by congruence. eapply vten_ext; [apply HF; exact Hn|]. intros x _. cbv beta. ring.
      * split; [exact I1|]. intros n Hn. eapply vten_ext; [apply I2; exact Hn|]. intros x Hx. cbn [lsum]. ring.
Qed.

(** The loops that add up tensors. *)
Lemma add_pairs_value ds l left right term (G : qpair -> list nat -> K) : nprod ds <> 0%nat ->
  (forall p, In p l -> 
     if is_empty (left p) || is_empty (right p) then forall x, in_range ds x -> G p x = 0
     else exists t, term (left p) (p_op p) (right p) = Ok t /\ wf t /\ dims t = ds /\ forall x, in_range ds x -> get t x = G p x) ->
  exists v, add_pairs l left right term = Ok v /\ vten ds v (fun x => lsum l (fun p => G p x)).
Proof.
  intros Hds Hl. unfold add_pairs.
  assert (H : forall m F, vten ds m F -> exists v, fold_left (fun out p => bind out (fun o =>
    let L := left p in let R := right p in
    if is_empty L || is_empty R then Ok o
    else bind (term L (p_op p) R) (fun t => Ok (maybe_add o t)))) l (Ok m) = Ok v /\ vten ds v (fun x => F x + lsum l (fun p => G p x))).
  { induction l as [|p l IH]; intros m F HF.
    - exists m. split; [reflexivity|]. eapply vten_ext; [exact HF|]. intros x _. cbn. ring.
    - pose proof (Hl p (or_introl eq_refl)) as Hp. cbn [fold_left bind]. cbv zeta.
      destruct (is_empty (left p) || is_empty (right p)) eqn:E.
      + destruct (IH (fun q Hq => Hl q (or_intror Hq)) m F HF) as (v & Hv & Hvt). exists v. split; [exact Hv|].
        eapply vten_ext; [exact Hvt|]. intros x Hx. cbn [lsum]. rewrite Hp by exact Hx. ring.
      + destruct Hp as (t & Ht & Hw & Hd & Hg). rewrite Ht. cbn [bind].
        destruct (IH (fun q Hq => Hl q (or_intror Hq)) (maybe_add m t) (fun x => F x + G p x)) as (v & Hv & Hvt).
        { apply vten_add; auto. }
        exists v. split; [exact Hv|]. eapply vten_ext; [exact Hvt|]. intros x Hx. cbn [lsum]. ring. }
  destruct (H empty (fun _ => 0) (vten_empty ds)) as (v & Hv & Hvt). exists v. split; [exact Hv|].
  eapply vten_ext; [exact Hvt|]. intros x _. cbv beta. ring.
Qed.

Lemma add_pairs2_value ds l1 l2 left right term (G : qpair -> qpair -> list nat -> K) : nprod ds <> 0%nat ->
  (forall p1 p2, In p1 l1 -> In p2 l2 -> 
     if is_empty (left p1) || is_empty (right p2) then forall x, in_range ds x -> G p1 p2 x = 0
     else exists t, term (left p1) (p_op p1) (p_op p2) (right p2) = Ok t /\ wf t /\ dims t = ds /\ forall x, in_range ds x -> get t x = G p1 p2 x) ->
  exists v, add_pairs2 l1 l2 left right term = Ok v /\
    vten ds v (fun x => lsum l1 (fun p1 => lsum l2 (fun p2 => if Nat.eqb (p_right p1) (p_left p2) then G p1 p2 x else 0))).
Proof.
  intros Hds Hl. unfold add_pairs2.
  assert (H1 : forall p1, In p1 l1 -> forall l, (forall p2, In p2 l -> In p2 l2) -> forall m F, vten ds m F -> exists v,
    fold_left (fun out p2 => bind out (fun o =>
    if Nat.eqb (p_right p1) (p_left p2) then
      let L := left p1 in let R := right p2 in
      if is_empty L || is_empty R then Ok o
      else bind (term L (p_op p1) (p_op p2) R) (fun t => Ok (maybe_add o t))
    else Ok o)) l (Ok m) = Ok v /\ vten ds v (fun x => F x + lsum l (fun p2 => if Nat.eqb (p_right p1) (p_left p2) then G p1 p2 x else 0))).
  { intros p1 Hp1. induction l as [|p l IH]; intros Hsub m F HF.
    - exists m. split; [reflexivity|]. eapply vten_ext; [exact HF|]. intros x _. cbn. ring.
    - pose proof (Hl p1 p Hp1 (Hsub p (or_introl eq_refl))) as Hp. cbn [fold_left bind]. cbv zeta.
      specialize (IH (fun q Hq => Hsub q (or_intror Hq))).
      destruct (Nat.eqb (p_right p1) (p_left p)) eqn:Eq.
      + destruct (is_empty (left p1) || is_empty (right p)) eqn:E.
        * destruct (IH m F HF) as (v & Hv & Hvt). exists v. split; [exact Hv|].
          eapply vten_ext; [exact Hvt|]. intros x Hx. cbn [lsum]. rewrite Eq, Hp by exact Hx. ring.
        * destruct Hp as (t & Ht & Hw & Hd & Hg). rewrite Ht. cbn [bind].
          destruct (IH (maybe_add m t) (fun x => F x + G p1 p x)) as (v & Hv & Hvt).
          { apply vten_add; auto. }
          exists v. split; [exact Hv|]. eapply vten_ext; [exact Hvt|]. intros x Hx. cbn [lsum]. rewrite Eq. ring.
      + destruct (IH m F HF) as (v & Hv & Hvt). exists v. split; [exact Hv|].
        eapply vten_ext; [exact Hvt|]. intros x Hx. cbn [lsum]. rewrite Eq. ring. }
  assert (H : forall l, (forall p1, In p1 l -> In p1 l1) -> forall m F, vten ds m F -> exists v,
    fold_left (fun out p1 => fold_left (fun out p2 => bind out (fun o =>
    if Nat.eqb (p_right p1) (p_left p2) then
      let L := left p1 in let R := right p2 in
      if is_empty L || is_empty R then Ok o
      else bind (term L (p_op p1) (p_op p2) R) (fun t => Ok (maybe_add o t))
    else Ok o)) l2 out) l (Ok m) = Ok v /\
    vten ds v (fun x => F x + lsum l (fun p1 => lsum l2 (fun p2 => if Nat.eqb (p_right p1) (p_left p2) then G p1 p2 x else 0)))).
  { induction l as [|p l IH]; intros Hsub m F HF.
    - exists m. split; [reflexivity|]. eapply vten_ext; [exact HF|]. intros x _. cbn. ring.
    - cbn [fold_left]. cbv zeta in H1, IH |- *. destruct (H1 p (Hsub p (or_introl eq_refl)) l2 (fun _ h => h) m F HF) as (v1 & Hv1 & Hvt1).
      rewrite Hv1. destruct (IH (fun q Hq => Hsub q (or_intror Hq)) v1 _ Hvt1) as (v & Hv & Hvt).
      exists v. split; [exact Hv|]. eapply vten_ext; [exact Hvt|]. intros x Hx. cbn [lsum]. ring. }
  destruct (H l1 (fun _ h => h) empty (fun _ => 0) (vten_empty ds)) as (v & Hv & Hvt). exists v. split; [exact Hv|].
  eapply vten_ext; [exact Hvt|]. intros x _. cbv beta. ring.
Qed.
End Facts.
