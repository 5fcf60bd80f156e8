(** * C65: predefined infinite states *)
From Coq Require Import Reals Lra Bool List Arith ZArith Lia Ring.
From Verif Require Import Scalar ScalarFacts RealInst RScal Tensor TensorFacts Spec MpsModel MpsFacts CanonModel CanonSpec CanonSweep SplitFacts SvdExist LFormValue ITebdModel ITebdSpec ITebdFacts ITebdSlow ITebdSpec2 ITebdGauge ITebdCanon ITebdCanon2 Properties_ITebd Properties_ITebd6.
Import ListNotations.
Local Open Scope K_scope.

Section States.
Context {RS : RScal}.
Add Ring Kring : k_ring.

Lemma amp_rotate D A p i is : linked D (A :: p) D -> length is = length p -> p <> [] -> amp (p ++ [A]) (is ++ [i]) = amp (A :: p) (i :: is).
Proof.
  intros HL Ln Hp. change (A :: p) with ([A] ++ p) in *. apply linked_app in HL. destruct HL as (E & H1 & H2).
  unfold amp. rewrite (linked_left_bond E (p ++ [A]) E); [|destruct p; discriminate|apply linked_app; exists D; split; assumption].
  rewrite (linked_left_bond D ([A] ++ p) D); [|discriminate|apply linked_app; exists E; split; assumption].
  transitivity (sum E (fun b => sum D (fun a => chain p is b a * chain [A] [i] a b))).
  { apply sum_ext. intros b Hb. apply (chain_app E _ D _ E); assumption. }
  rewrite sum_swap. apply sum_ext. intros a Ha.
  change (i :: is) with ([i] ++ is). rewrite (chain_app D [A] E p D) by (first [assumption|reflexivity]).
  apply sum_ext. intros b Hb. ring.
Qed.

Section Uniform.
Variables (psi : itebd) (T : tensor) (D d : nat).
Hypothesis HD : (0 < D)%nat.
Hypothesis Hd : (0 < d)%nat.
Hypothesis HT : dims T = [D; d; D].
Hypothesis HTw : wf T.
Hypothesis HA : iAlA psi = T.
Hypothesis HB : iBlB psi = T.

Lemma cells_uniform n : cells psi n = repeat T (2 * n).
Proof using All.
  unfold cells. rewrite HA, HB. induction n as [|n IH]; [reflexivity|]. replace (2 * S n)%nat with (S (S (2 * n))) by lia. cbn [repeat concat app]. rewrite IH. reflexivity.
Qed.

Lemma linked_uniform n : linked D (repeat T n) D.
Proof using All. induction n as [|n IH]; [reflexivity|]. cbn [repeat linked]. exists d, D. repeat split; auto. Qed.

Lemma pair_sum (v : nat -> nat -> K) p q pre post x y : length pre = p -> length post = q -> (x < D)%nat ->
  (forall a b, (a < D)%nat -> (b < D)%nat -> sum d (fun i => sum d (fun j => v i j * chain [T; T] [i; j] a b)) = 0) ->
  sum d (fun i => sum d (fun j => v i j * chain (repeat T (p + (2 + q))) (pre ++ i :: j :: post) x y)) = 0.
Proof using All.
  intros Hp Hq Hx Hv.
  transitivity (sum D (fun a => sum D (fun b => chain (repeat T p) pre x a * sum d (fun i => sum d (fun j => v i j * chain [T; T] [i; j] a b)) * chain (repeat T q) post b y))).
  - transitivity (sum d (fun i => sum d (fun j => sum D (fun a => sum D (fun b => v i j * (chain (repeat T p) pre x a * (chain [T; T] [i; j] a b * chain (repeat T q) post b y))))))).
    + apply sum_ext. intros i Hi. apply sum_ext. intros j Hj. rewrite repeat_app.
      rewrite (chain_app D (repeat T p) D (repeat T (2 + q)) D); [|apply linked_uniform|apply linked_uniform|rewrite repeat_length; exact Hp|exact Hx].
      rewrite sum_mul_l. apply sum_ext. intros a Ha. change (i :: j :: post) with ([i; j] ++ post). change (repeat T (2 + q)) with ([T; T] ++ repeat T q).
      rewrite (chain_app D [T; T] D (repeat T q) D); [|apply (linked_uniform 2)|apply linked_uniform|reflexivity|exact Ha].
      rewrite !sum_mul_l. apply sum_ext. intros b Hb. reflexivity.
    + transitivity (sum d (fun i => sum D (fun a => sum D (fun b => sum d (fun j => v i j * (chain (repeat T p) pre x a * (chain [T; T] [i; j] a b * chain (repeat T q) post b y))))))).
      { apply sum_ext. intros i Hi. rewrite (sum_swap d D). apply sum_ext. intros a Ha. apply (sum_swap d D). }
      rewrite (sum_swap d D). apply sum_ext. intros a Ha. rewrite (sum_swap d D). apply sum_ext. intros b Hb. rewrite sum_mul_l, sum_mul_r. apply sum_ext. intros i Hi. rewrite sum_mul_l, sum_mul_r. apply sum_ext. intros j Hj. ring.
  - apply sum_zero. intros a Ha. apply sum_zero. intros b Hb. rewrite Hv by assumption. ring.
Qed.

(** A state of two neighbours that the pair of tensors does not contain is not contained in any ring. *)
Lemma ring_pair (v : nat -> nat -> K) n :
  (forall a b, (a < D)%nat -> (b < D)%nat -> sum d (fun i => sum d (fun j => v i j * chain [T; T] [i; j] a b)) = 0) ->
  (forall pre post, (length pre + 2 + length post = 2 * n)%nat -> sum d (fun i => sum d (fun j => v i j * ring psi n (pre ++ i :: j :: post))) = 0) /\
  (forall mid, (2 + length mid = 2 * n)%nat -> sum d (fun i => sum d (fun j => v i j * ring psi n (j :: mid ++ [i]))) = 0).
Proof using All.
  intros Hv. assert (Hg : forall p q pre post, length pre = p -> length post = q -> (p + (2 + q) = 2 * n)%nat ->
    sum d (fun i => sum d (fun j => v i j * amp (repeat T (2 * n)) (pre ++ i :: j :: post))) = 0).
  { intros p q pre post Hp Hq Hn. unfold amp. rewrite (linked_left_bond D _ D); [|destruct n; [lia|discriminate]|apply linked_uniform].
    transitivity (sum D (fun x => sum d (fun i => sum d (fun j => v i j * chain (repeat T (2 * n)) (pre ++ i :: j :: post) x x)))).
    - transitivity (sum d (fun i => sum D (fun x => sum d (fun j => v i j * chain (repeat T (2 * n)) (pre ++ i :: j :: post) x x)))).
      { apply sum_ext. intros i Hi. rewrite <- (sum_swap d D). apply sum_ext. intros j Hj. apply sum_mul_l. }
      apply sum_swap.
    - apply sum_zero. intros x Hx. rewrite <- Hn. apply pair_sum; assumption. }
  split.
  - intros pre post Hn. unfold ring. rewrite cells_uniform. apply (Hg (length pre) (length post)); [reflexivity|reflexivity|lia].
  - intros mid Hn. unfold ring. rewrite cells_uniform.
    rewrite <- (Hg (length mid) 0%nat mid []); [|reflexivity|reflexivity|lia]. apply sum_ext. intros i Hi. apply sum_ext. intros j Hj. f_equal.
    destruct n as [|n]; [lia|]. replace (2 * S n)%nat with (S (S (2 * n))) in * by lia.
    change (repeat T (S (S (2 * n)))) with (T :: repeat T (S (2 * n))).
    rewrite <- (amp_rotate D T (repeat T (S (2 * n))) j (mid ++ [i])); [|apply (linked_uniform (S (S (2 * n))))|rewrite app_length, repeat_length; cbn; lia|discriminate].
    replace (repeat T (S (2 * n)) ++ [T]) with (T :: repeat T (S (2 * n))); [|apply repeat_cons]. rewrite <- app_assoc. reflexivity.
Qed.
End Uniform.

Lemma infinite_state_ok A d : dims A = [2; d; 2]%nat -> wf A -> (0 < d)%nat ->
  exists psi, infinite_state A = Ok psi /\ wf_itebd psi /\ iAlA psi = A /\ iBlB psi = A /\ iA psi = A /\ iB psi = A /\ icanon psi = false.
Proof.
  intros HA Hw Hd. destruct (C53_construct A [1; 1]%R A [1; 1]%R false 2 d 2 d) as (psi & E & Hwf & _); try assumption; try reflexivity; try lia.
  exists psi. split; [exact E|]. split; [exact Hwf|]. unfold new_itebd in E. match type of E with (if ?t then _ else _) = _ => destruct t; [|discriminate] end.
  apply Ok_inj' in E. rewrite <- E. cbn [iAlA iBlB iA iB icanon]. unfold rank. rewrite HA. cbn [length Nat.sub].
  assert (Es : scale A 2 [1; 1]%R = A).
  { apply (combined_scale A A [1; 1]%R 2 d 2 HA HA Hw). intros x y z Hx Hy Hz. destruct z as [|[|]]; [| |lia]; cbn [nth]; rewrite rinj_1; ring. }
  rewrite Es. repeat split; reflexivity.
Qed.

(** infinite_ghz_state: every ring is |00...0> + |11...1>. *)
Theorem C65_ghz : exists psi, infinite_state ghz_tensor = Ok psi /\ wf_itebd psi /\
  forall n is, (0 < n)%nat -> in_range (cell_dims psi n) is ->
    ring psi n is = (if forallb (Nat.eqb 0) is then 1 else 0) + (if forallb (Nat.eqb 1) is then 1 else 0).
Proof.
  destruct (infinite_state_ok ghz_tensor 2 eq_refl (wf_mk _ _) ltac:(lia)) as (psi & E & Hw & HA & HB & HA1 & HB1 & _). exists psi. split; [exact E|]. split; [exact Hw|].
  assert (Hc : forall m is a b, in_range (repeat 2%nat m) is -> (a < 2)%nat -> (b < 2)%nat ->
    chain (repeat ghz_tensor m) is a b = if forallb (Nat.eqb a) is then delta a b else 0).
  { induction m as [|m IH]; intros is a b Hi Ha Hb; cbn [repeat] in Hi.
    - apply in_range_nil_inv in Hi. subst is. reflexivity.
    - apply in_range_cons_inv in Hi. destruct Hi as (i & is' & -> & Hi1 & Hi2). cbn [repeat chain]. change (dim ghz_tensor 2) with 2%nat.
      transitivity (sum 2 (fun c => (if Nat.eqb a i then delta a c else 0) * (if forallb (Nat.eqb c) is' then delta c b else 0))).
      { apply sum_ext. intros c Hc. rewrite IH by assumption. f_equal. unfold ghz_tensor. rewrite get_mk by (apply in_range_3; assumption).
        destruct a as [|[|]]; [| |lia]; (destruct i as [|[|]]; [| |lia]); (destruct c as [|[|]]; [| |lia]); reflexivity. }
      cbn [forallb]. destruct (Nat.eqb a i); cbn [andb].
      + apply (sum_delta_l' 2 a (fun c => if forallb (Nat.eqb c) is' then delta c b else 0) Ha).
      + apply sum_zero. intros. ring. }
  intros n is Hn Hi. unfold ring, amp. rewrite (cells_uniform psi ghz_tensor 2 2 ltac:(lia) ltac:(lia) eq_refl (wf_mk _ _) HA HB). destruct n as [|n]; [lia|]. cbn [Nat.mul]. replace (S n + (S n + 0))%nat with (S (S (n + n))) by lia.
  change (left_bond (repeat ghz_tensor (S (S (n + n))))) with 2%nat. cbn [sum].
  assert (Hi' : in_range (repeat 2%nat (S (S (n + n)))) is).
  { replace (repeat 2%nat (S (S (n + n)))) with (cell_dims psi (S n)); [exact Hi|]. unfold cell_dims. rewrite HA1, HB1. change (dim ghz_tensor 1) with 2%nat. clear.
    replace (S (S (n + n))) with (2 * S n)%nat by lia. generalize (S n). intros m. induction m as [|m IH]; [reflexivity|]. replace (2 * S m)%nat with (S (S (2 * m))) by lia. cbn [repeat concat app]. rewrite IH. reflexivity. }
  rewrite !Hc by (first [assumption|lia]). unfold delta. cbn [Nat.eqb]. destruct (forallb (Nat.eqb 0) is), (forallb (Nat.eqb 1) is); ring.
Qed.

(** The states of total spin two of two spins one (not normalised), S_z = 2 - m; the basis is +1, 0, -1. *)
Definition spin2 (m i j : nat) : K := if Nat.eqb (i + j) m then (if Nat.eqb i 1 && Nat.eqb j 1 then 1 + 1 else 1) else 0.
(** They come from |+1,+1> by lowering: S_- takes i to i+1 (times a square root of 2). *)
Lemma spin2_lowering m i j : (m < 4)%nat -> (i < 3)%nat -> (j < 3)%nat ->
  (if Nat.eqb i 0 then 0 else spin2 m (i - 1) j) + (if Nat.eqb j 0 then 0 else spin2 m i (j - 1)) = kofnat (nth m [1; 1; 3; 2]%nat 0%nat) * spin2 (S m) i j.
Proof.
  intros Hm Hi Hj. do 4 (destruct m as [|m]; [do 3 (destruct i as [|i]; [do 3 (destruct j as [|j]; [unfold spin2; cbn [Nat.eqb Nat.sub Nat.add andb nth kofnat]; ring|]); lia|]); lia|]). lia.
Qed.

Lemma aklt_get a i c : (a < 2)%nat -> (i < 3)%nat -> (c < 2)%nat ->
  get aklt_tensor [a; i; c] = match a, i, c with
    | 0, 0, 1 => rinj (sqrt (2 / 3)) | 0, 1, 0 => rinj (- sqrt (1 / 3)) | 1, 1, 1 => rinj (sqrt (1 / 3)) | 1, 2, 0 => rinj (- sqrt (2 / 3)) | _, _, _ => 0%K end%nat.
Proof.
  intros Ha Hi Hc. unfold aklt_tensor. rewrite get_mk by (apply in_range_3; assumption).
  destruct a as [|[|]]; [| |lia]; (destruct i as [|[|[|]]]; [| | |lia]); (destruct c as [|[|]]; [| |lia]); reflexivity.
Qed.

(** infinite_aklt_state: in every ring no pair of neighbours, the last and the first included, has total spin two; and
    the ring is not zero. *)
Theorem C65_aklt : exists psi, infinite_state aklt_tensor = Ok psi /\ wf_itebd psi /\
  (forall n m pre post, (length pre + 2 + length post = 2 * n)%nat -> sum 3 (fun i => sum 3 (fun j => spin2 m i j * ring psi n (pre ++ i :: j :: post))) = 0) /\
  (forall n m mid, (2 + length mid = 2 * n)%nat -> sum 3 (fun i => sum 3 (fun j => spin2 m i j * ring psi n (j :: mid ++ [i]))) = 0) /\
  (forall n, (0 < n)%nat -> ring psi n (repeat 1%nat (2 * n)) = rinj (2 * (1 / 3) ^ n)%R).
Proof.
  destruct (infinite_state_ok aklt_tensor 3 eq_refl (wf_mk _ _) ltac:(lia)) as (psi & E & Hw & HA & HB & HA1 & HB1 & _). exists psi. split; [exact E|]. split; [exact Hw|].
  set (s := rinj (sqrt (2 / 3))). set (t := rinj (sqrt (1 / 3))).
  assert (Es : s * s = (1 + 1) * (t * t)).
  { unfold s, t. rewrite <- !rinj_mul, !sqrt_sqrt by lra. rewrite <- rinj_1, <- rinj_add, <- rinj_mul. f_equal. lra. }
  assert (Hv : forall m a b, (a < 2)%nat -> (b < 2)%nat -> sum 3 (fun i => sum 3 (fun j => spin2 m i j * chain [aklt_tensor; aklt_tensor] [i; j] a b)) = 0).
  { intros m a b Ha Hb.
    transitivity (sum 3 (fun i => sum 3 (fun j => spin2 m i j * sum 2 (fun c => get aklt_tensor [a; i; c] * get aklt_tensor [c; j; b])))).
    { apply sum_ext. intros i _. apply sum_ext. intros j _. f_equal. apply (chain2 _ _ _ _ _ _ 2 2); [reflexivity|reflexivity|exact Hb]. }
    cbn [sum]. rewrite !aklt_get by (first [assumption|lia]). rewrite !rinj_opp. fold s t. unfold spin2. cbn [Nat.add Nat.eqb andb].
    destruct a as [|[|]]; [| |lia]; (destruct b as [|[|]]; [| |lia]); (do 5 (destruct m as [|m]; [cbn [Nat.eqb]; ring [Es]|])); cbn [Nat.eqb]; ring. }
  split; [|split].
  - intros n m pre post Hn. apply (ring_pair psi aklt_tensor 2 3 ltac:(lia) ltac:(lia) eq_refl (wf_mk _ _) HA HB (spin2 m) n (Hv m)). exact Hn.
  - intros n m mid Hn. apply (ring_pair psi aklt_tensor 2 3 ltac:(lia) ltac:(lia) eq_refl (wf_mk _ _) HA HB (spin2 m) n (Hv m)). exact Hn.
  - assert (Hc : forall n a, (a < 2)%nat -> chain (repeat aklt_tensor (2 * n)) (repeat 1%nat (2 * n)) a a = rinj ((1 / 3) ^ n)%R).
    { induction n as [|n IH]; intros a Ha.
      - cbn. rewrite rinj_1. unfold delta. rewrite Nat.eqb_refl. reflexivity.
      - replace (2 * S n)%nat with (S (S (2 * n))) by lia. cbn [repeat chain]. change (dim aklt_tensor 2) with 2%nat.
        assert (Ht : t * t = rinj (1 / 3)%R) by (unfold t; rewrite <- rinj_mul, sqrt_sqrt by lra; reflexivity).
        cbn [sum]. rewrite !aklt_get by (first [assumption|lia]). rewrite !rinj_opp. fold s t. cbn [pow]. rewrite rinj_mul, <- Ht.
        destruct a as [|[|]]; [| |lia]; [rewrite <- (IH 0%nat) by lia|rewrite <- (IH 1%nat) by lia]; ring. }
    intros n Hn. unfold ring, amp. rewrite (cells_uniform psi aklt_tensor 2 3 ltac:(lia) ltac:(lia) eq_refl (wf_mk _ _) HA HB). destruct n as [|n]; [lia|].
    replace (left_bond (repeat aklt_tensor (2 * S n))) with 2%nat by reflexivity. cbn [sum]. rewrite !Hc by lia. rewrite rinj_mul. change 2%R with (1 + 1)%R. rewrite rinj_add, rinj_1. ring.
Qed.

(** What a user expects of the cluster state: Z X Z on three neighbours leaves it alone.  Here the three neighbours are
    sites 0, 1 and 2 of the ring: X flips site 1, Z gives a sign to sites 0 and 2. *)
Definition zxz (f : list nat -> K) (is : list nat) : K :=
  match is with
  | i :: j :: k :: r => (if Nat.eqb (i + k) 1 then - (1) else 1) * f (i :: 1 - j :: k :: r)%nat
  | _ => 0 end.

(** infinite_cluster_state is not stabilised by Z X Z: the sign and the amplitude of its tensor are in the wrong place. *)
Theorem C65_cluster_refuted : exists psi, infinite_state cluster_tensor = Ok psi /\ wf_itebd psi /\
  zxz (ring psi 2) [1; 0; 1; 1]%nat <> ring psi 2 [1; 0; 1; 1]%nat.
Proof.
  destruct (infinite_state_ok cluster_tensor 2 eq_refl (wf_mk _ _) ltac:(lia)) as (psi & E & Hw & HA & HB & _). exists psi. split; [exact E|]. split; [exact Hw|].
  unfold zxz, ring. rewrite (cells_uniform psi cluster_tensor 2 2 ltac:(lia) ltac:(lia) eq_refl (wf_mk _ _) HA HB). cbn [Nat.add Nat.mul Nat.sub Nat.eqb repeat].
  set (v := rinj (1 / sqrt 2)%R).
  assert (Hg : forall a i c, (a < 2)%nat -> (i < 2)%nat -> (c < 2)%nat -> get cluster_tensor [a; i; c] =
    match a, i, c with 0, 0, 0 | 0, 0, 1 | 0, 1, 0 => v | 1, 1, 1 => - v | _, _, _ => 0%K end%nat).
  { intros a i c Ha Hi Hc. unfold cluster_tensor. rewrite get_mk by (apply in_range_3; assumption). unfold v. rewrite <- rinj_opp.
    destruct a as [|[|]]; [| |lia]; (destruct i as [|[|]]; [| |lia]); (destruct c as [|[|]]; [| |lia]); reflexivity. }
  unfold amp. change (left_bond [cluster_tensor; cluster_tensor; cluster_tensor; cluster_tensor]) with 2%nat.
  cbn [chain]. change (dim cluster_tensor 2) with 2%nat. unfold delta. cbn [sum Nat.eqb]. rewrite !Hg by lia.
  intros H0. assert (H1 : v * v * (v * v) = 0) by (match type of H0 with ?l = ?r => transitivity (l - r); [ring|rewrite H0; ring] end).
  unfold v in H1. rewrite <- !rinj_mul, <- rinj_0 in H1. apply rinj_inj in H1.
  assert (H2 : ((1 / sqrt 2) * (1 / sqrt 2) = / 2)%R) by (field_simplify; [rewrite <- Rsqr_pow2, Rsqr_sqrt by lra; lra|apply Rgt_not_eq, sqrt_lt_R0; lra]).
  rewrite H2 in H1. lra.
Qed.

(** With A(a,i,b) = (-1)^(a b) [a=i] / sqrt 2 instead the property holds (so the specification can be met). *)
Definition cluster_fixed : tensor :=
  mk [2; 2; 2]%nat (fun x => match x with
    | [0; 0; 0] | [0; 0; 1] | [1; 1; 0] => rinj (1 / sqrt 2)%R | [1; 1; 1] => rinj (- (1 / sqrt 2))%R | _ => 0%K end)%nat.
Lemma cluster_fixed_stabilised : exists psi, infinite_state cluster_fixed = Ok psi /\ wf_itebd psi /\
  forall n i j k r, (i < 2)%nat -> (j < 2)%nat -> (k < 2)%nat -> (3 + length r = 2 * n)%nat -> zxz (ring psi n) (i :: j :: k :: r) = ring psi n (i :: j :: k :: r).
Proof.
  destruct (infinite_state_ok cluster_fixed 2 eq_refl (wf_mk _ _) ltac:(lia)) as (psi & E & Hw & HA & HB & _). exists psi. split; [exact E|]. split; [exact Hw|].
  intros n i j k r Hi Hj Hk Hn. unfold zxz, ring. rewrite (cells_uniform psi cluster_fixed 2 2 ltac:(lia) ltac:(lia) eq_refl (wf_mk _ _) HA HB). rewrite <- Hn. cbn [Nat.add repeat].
  set (v := rinj (1 / sqrt 2)%R).
  assert (Hg : forall a i c, (a < 2)%nat -> (i < 2)%nat -> (c < 2)%nat -> get cluster_fixed [a; i; c] =
    match a, i, c with 0, 0, 0 | 0, 0, 1 | 1, 1, 0 => v | 1, 1, 1 => - v | _, _, _ => 0%K end%nat).
  { clear. intros a i c Ha Hi Hc. unfold cluster_fixed. rewrite get_mk by (apply in_range_3; assumption). unfold v. rewrite <- rinj_opp.
    destruct a as [|[|]]; [| |lia]; (destruct i as [|[|]]; [| |lia]); (destruct c as [|[|]]; [| |lia]); reflexivity. }
  unfold amp. change (left_bond (cluster_fixed :: cluster_fixed :: cluster_fixed :: repeat cluster_fixed (length r))) with 2%nat.
  cbn [chain]. change (dim cluster_fixed 2) with 2%nat. cbn [sum].
  destruct i as [|[|]]; [| |lia]; (destruct j as [|[|]]; [| |lia]); (destruct k as [|[|]]; [| |lia]); cbn [Nat.sub Nat.add Nat.eqb]; rewrite !Hg by lia; ring.
Qed.
End States.
