(** * Cutting the operator of an open chain at a site, and contracting it with a state *)
From Coq Require Import Bool List Arith ZArith Lia Ring Setoid.
From Verif Require Import Scalar ScalarFacts Tensor TensorFacts Spec MpsModel MpsFacts ExpectedFacts ITebdFacts HamSpec HamModel HamFacts.
Import ListNotations.
Local Open Scope K_scope.

Section Split.
Context {SC : Scalar}.
Add Ring KringS : k_ring.
Variable H : hamiltonian.

Definition loc (k : nat) := mat (h_local H k).
Definition lft (k m : nat) := mat (h_left H k m).
Definition rgt (k m : nat) := mat (h_right H k m).
Definition dep (k : nat) : nat := h_depth H k.

Lemma id_op_app' i1 i2 j1 j2 : length j1 = length i1 -> id_op (i1 ++ i2) (j1 ++ j2) = id_op i1 j1 * id_op i2 j2.
Proof.
  revert j1. induction i1 as [|i i1 IH]; intros [|j j1] Hl; cbn [length] in Hl; try discriminate; cbn [app id_op]; [ring|].
  rewrite IH by lia. ring.
Qed.

(** The Hamiltonian of the sites s, s+1, ... *)
Definition bondh (s i j : nat) (x y : list nat) : K :=
  match x, y with
  | p :: x', q :: y' => sum (dep s) (fun m => lft s m i j * rgt s m p q) * id_op x' y'
  | _, _ => 0
  end.
Fixpoint hseg (s : nat) (x y : list nat) : K :=
  match x, y with
  | i :: x', j :: y' => loc s i j * id_op x' y' + bondh s i j x' y' + delta i j * hseg (S s) x' y'
  | _, _ => 0
  end.

Lemma two_site_S k (A B : nat -> nat -> K) i j x y : two_site (S k) (S (S k)) A B (i :: x) (j :: y) = delta i j * two_site k (S k) A B x y.
Proof.
  unfold two_site. cbn [product_op Nat.eqb]. f_equal. generalize 0%nat. revert y. induction x as [|p x IH]; intros [|q y] s; cbn [product_op]; try reflexivity.
  rewrite IH. reflexivity.
Qed.
Lemma two_site_0 (A B : nat -> nat -> K) i j x y : two_site 0 1 A B (i :: x) (j :: y) =
  match x, y with p :: x', q :: y' => A i j * B p q * id_op x' y' | [], [] => A i j | _, _ => 0 end.
Proof.
  unfold two_site. cbn [product_op Nat.eqb]. destruct x as [|p x], y as [|q y]; cbn [product_op Nat.eqb]; try ring.
  rewrite <- (product_op_id 2). rewrite (product_op_ext 2 _ (fun _ => delta) x y); [ring|]. intros m a b Hm.
  destruct (Nat.eqb_spec m 0); [lia|]. destruct (Nat.eqb_spec m 1); [lia|]. reflexivity.
Qed.

Lemma hseg_sums : forall x y s, length y = length x ->
  sum (length x) (fun k => site_op k (loc (s + k)) x y) +
  sum (length x - 1) (fun k => sum (dep (s + k)) (fun m => two_site k (S k) (lft (s + k) m) (rgt (s + k) m) x y)) = hseg s x y.
Proof.
  induction x as [|i x IH]; intros [|j y] s Hl; cbn [length] in Hl; try discriminate; [cbn; ring|].
  cbn [length hseg]. rewrite sum_S_l. rewrite <- (IH y (S s)) by lia. cbn [site_op]. rewrite Nat.add_0_r.
  rewrite (sum_ext (length x) _ (fun k => delta i j * site_op k (loc (S s + k)) x y)).
  2:{ intros k Hk. rewrite Nat.add_succ_r. reflexivity. }
  rewrite <- sum_mul_l. replace (S (length x) - 1)%nat with (length x) by lia.
  destruct x as [|p x]; destruct y as [|q y]; try discriminate; [cbn; ring|].
  cbn [length]. replace (S (length x) - 1)%nat with (length x) by lia. rewrite (sum_S_l (length x) (fun k => sum (dep (s + k)) _)). rewrite Nat.add_0_r.
  rewrite (sum_ext (dep s) _ (fun m => lft s m i j * rgt s m p q * id_op x y)).
  2:{ intros m Hm. rewrite two_site_0. reflexivity. }
  rewrite <- sum_mul_r.
  rewrite (sum_ext (length x) _ (fun k => delta i j * sum (dep (S s + k)) (fun m => two_site k (S k) (lft (S s + k) m) (rgt (S s + k) m) (p :: x) (q :: y)))).
  2:{ intros k Hk. rewrite sum_mul_l. rewrite Nat.add_succ_r. apply sum_ext. intros m Hm. apply two_site_S. }
  rewrite <- sum_mul_l. cbn [bondh]. ring.
Qed.

Lemma ham_hseg x y : h_periodic H = false -> length x = h_size H -> length y = h_size H -> ham_op H x y = hseg 0 x y.
Proof.
  intros Hp Hx Hy. unfold ham_op, chain_op. rewrite Hp. cbn [andb]. rewrite <- (hseg_sums x y 0) by congruence. rewrite Hx.
  rewrite (sum_ext (h_size H - 1) (fun k => bond_op k (S k) (h_terms H k) x y) (fun k => sum (dep (0 + k)) (fun m => two_site k (S k) (lft (0 + k) m) (rgt (0 + k) m) x y))).
  - unfold loc. cbn [Nat.add]. ring.
  - intros k Hk. apply bond_op_sum.
Qed.

(** L_m on the last site of the sites s, s+1, ...; R_m on the first site of s+1, ... *)
Fixpoint lastop (s m : nat) (x y : list nat) : K :=
  match x, y with
  | i :: x', j :: y' => match x' with [] => (match y' with [] => lft s m i j | _ => 0 end) | _ => delta i j * lastop (S s) m x' y' end
  | _, _ => 0
  end.
Definition firstop (s m : nat) (x y : list nat) : K :=
  match x, y with i :: x', j :: y' => rgt s m i j * id_op x' y' | _, _ => 0 end.

Lemma lastop_snoc m p q : forall x y s, length y = length x -> lastop s m (x ++ [p]) (y ++ [q]) = id_op x y * lft (s + length x) m p q.
Proof.
  induction x as [|i x IH]; intros [|j y] s Hl; cbn [length] in Hl; try discriminate.
  - cbn. rewrite Nat.add_0_r. ring.
  - cbn [app lastop id_op length]. rewrite Nat.add_succ_r. specialize (IH y (S s) ltac:(lia)). cbn [Nat.add] in IH.
    destruct (x ++ [p]) eqn:E; [destruct x; discriminate|]. rewrite IH. ring.
Qed.

Lemma hseg_cut i j y y' : length y' = length y -> forall x x' s, length x' = length x ->
  hseg s (x ++ i :: y) (x' ++ j :: y') =
    hseg s x x' * delta i j * id_op y y' +
    sum (dep (s + length x - 1)) (fun m => lastop s m x x' * rgt (s + length x - 1) m i j) * id_op y y' +
    id_op x x' * loc (s + length x) i j * id_op y y' +
    id_op x x' * sum (dep (s + length x)) (fun m => lft (s + length x) m i j * firstop (s + length x) m y y') +
    id_op x x' * delta i j * hseg (S (s + length x)) y y'.
Proof.
  intros Hy. induction x as [|p x IH]; intros [|q x'] s Hl; cbn [length] in Hl; try discriminate.
  - cbn [app hseg lastop id_op length]. rewrite Nat.add_0_r.
    rewrite (sum_zero (dep (s - 1)) (fun m => 0 * rgt (s - 1) m i j)) by (intros; ring).
    assert (E : bondh s i j y y' = sum (dep s) (fun m => lft s m i j * firstop s m y y')).
    { destruct y as [|p y], y' as [|q y']; try discriminate; cbn [bondh firstop].
      - rewrite sum_zero by (intros; ring). reflexivity.
      - rewrite sum_mul_r. apply sum_ext. intros. ring. }
    rewrite E. ring.
  - cbn [app hseg length]. specialize (IH x' (S s) ltac:(lia)). rewrite IH. clear IH.
    replace (S s + length x)%nat with (s + S (length x))%nat by lia. replace (s + S (length x) - 1)%nat with (s + length x)%nat by lia.
    rewrite id_op_app' by lia. cbn [id_op].
    destruct x as [|p2 x], x' as [|q2 x']; try discriminate.
    + cbn [app bondh hseg lastop id_op length]. rewrite !Nat.add_0_r.
      rewrite (sum_zero (dep s) (fun m => 0 * rgt s m i j)) by (intros; ring). ring.
    + assert (E0 : id_op (x ++ i :: y) (x' ++ j :: y') = id_op x x' * id_op (i :: y) (j :: y')) by (apply id_op_app'; cbn in Hl; lia).
      cbn [app bondh]. rewrite E0. clear E0. cbn [id_op].
      change (lastop s) with (fun m => lastop s m). cbn beta.
      rewrite (sum_ext (dep (s + length (p2 :: x))) (fun m => lastop s m (p :: p2 :: x) (q :: q2 :: x') * rgt (s + length (p2 :: x)) m i j)
                 (fun m => delta p q * (lastop (S s) m (p2 :: x) (q2 :: x') * rgt (s + length (p2 :: x)) m i j))) by (intros; cbn [lastop]; ring).
      rewrite <- sum_mul_l.
      set (T := sum (dep (s + length (p2 :: x))) _).
      set (U := sum (dep (s + S (length (p2 :: x)))) _).
      set (V := hseg (S (s + S (length (p2 :: x)))) y y').
      set (Hh := hseg (S s) (p2 :: x) (q2 :: x')).
      replace (hseg s (p :: p2 :: x) (q :: q2 :: x')) with (loc s p q * (delta p2 q2 * id_op x x') + sum (dep s) (fun m => lft s m p q * rgt s m p2 q2) * id_op x x' + delta p q * Hh) by reflexivity.
      ring.
Qed.

(** ** Contractions *)
Definition Lc (p : mps) (h : list nat -> list nat -> K) (a a' : nat) : K :=
  sumcfg (pdims p) (fun x => sumcfg (pdims p) (fun y => kconj (chain p x 0 a) * h x y * chain p y 0 a')).
Definition Rc (q q' : mps) (h : list nat -> list nat -> K) (b b' : nat) : K :=
  sumcfg (pdims q) (fun x => sumcfg (pdims q') (fun y => kconj (chain q x b 0) * h x y * chain q' y b' 0)).

Lemma Lc_ext p h g a a' : (forall x y, in_range (pdims p) x -> in_range (pdims p) y -> h x y = g x y) -> Lc p h a a' = Lc p g a a'.
Proof. intros E. apply sumcfg_ext. intros x Hx. apply sumcfg_ext. intros y Hy. rewrite E by assumption. reflexivity. Qed.
Lemma Rc_ext q q' h g b b' : (forall x y, in_range (pdims q) x -> in_range (pdims q') y -> h x y = g x y) -> Rc q q' h b b' = Rc q q' g b b'.
Proof. intros E. apply sumcfg_ext. intros x Hx. apply sumcfg_ext. intros y Hy. rewrite E by assumption. reflexivity. Qed.
Lemma Lc_add p h g a a' : Lc p (fun x y => h x y + g x y) a a' = Lc p h a a' + Lc p g a a'.
Proof.
  unfold Lc. rewrite <- sumcfg_add. apply sumcfg_ext. intros x Hx. rewrite <- sumcfg_add. apply sumcfg_ext. intros y Hy. ring.
Qed.
Lemma Rc_add q q' h g b b' : Rc q q' (fun x y => h x y + g x y) b b' = Rc q q' h b b' + Rc q q' g b b'.
Proof.
  unfold Rc. rewrite <- sumcfg_add. apply sumcfg_ext. intros x Hx. rewrite <- sumcfg_add. apply sumcfg_ext. intros y Hy. ring.
Qed.
Lemma Lc_sum p n h a a' : Lc p (fun x y => sum n (fun m => h m x y)) a a' = sum n (fun m => Lc p (h m) a a').
Proof.
  unfold Lc. rewrite <- sumcfg_sum_swap. apply sumcfg_ext. intros x Hx. rewrite <- sumcfg_sum_swap. apply sumcfg_ext. intros y Hy.
  rewrite sum_mul_l, sum_mul_r. reflexivity.
Qed.
Lemma Rc_sum q q' n h b b' : Rc q q' (fun x y => sum n (fun m => h m x y)) b b' = sum n (fun m => Rc q q' (h m) b b').
Proof.
  unfold Rc. rewrite <- sumcfg_sum_swap. apply sumcfg_ext. intros x Hx. rewrite <- sumcfg_sum_swap. apply sumcfg_ext. intros y Hy.
  rewrite sum_mul_l, sum_mul_r. reflexivity.
Qed.
Lemma Rc_conj q q' h b b' : kconj (Rc q q' h b b') = Rc q' q (fun x y => kconj (h y x)) b' b.
Proof.
  unfold Rc. rewrite sumcfg_conj, (sumcfg_swap (pdims q')). apply sumcfg_ext. intros x Hx. rewrite sumcfg_conj. apply sumcfg_ext. intros y Hy.
  rewrite !kconj_mul, kconj_inv. ring.
Qed.
Lemma Lc_conj p h a a' : kconj (Lc p h a a') = Lc p (fun x y => kconj (h y x)) a' a.
Proof.
  unfold Lc. rewrite sumcfg_conj, (sumcfg_swap (pdims p)). apply sumcfg_ext. intros x Hx. rewrite sumcfg_conj. apply sumcfg_ext. intros y Hy.
  rewrite !kconj_mul, kconj_inv. ring.
Qed.

(** A product operator on two parts *)
Lemma pair_app p r r' m g h1 h2 : linked 1 p m -> linked m r 1 -> linked m r' 1 ->
  (forall x y x' y', in_range (pdims p) x -> in_range (pdims p) x' -> in_range (pdims r) y -> in_range (pdims r') y' -> g (x ++ y) (x' ++ y') = h1 x x' * h2 y y') ->
  Rc (p ++ r) (p ++ r') g 0 0 = sum m (fun a => sum m (fun a' => Lc p h1 a a' * Rc r r' h2 a a')).
Proof.
  intros Hp Hr Hr' Hg. unfold Rc at 1. rewrite !pdims_app.
  transitivity (sumcfg (pdims p) (fun x => sumcfg (pdims r) (fun y => sumcfg (pdims p) (fun x' => sumcfg (pdims r') (fun y' =>
     sum m (fun a => sum m (fun a' => (kconj (chain p x 0 a) * h1 x x' * chain p x' 0 a') * (kconj (chain r y a 0) * h2 y y' * chain r' y' a' 0)))))))).
  - rewrite sumcfg_app. apply sumcfg_ext. intros x Hx. apply sumcfg_ext. intros y Hy. rewrite sumcfg_app. apply sumcfg_ext. intros x' Hx'. apply sumcfg_ext. intros y' Hy'.
    rewrite Hg by assumption.
    rewrite (chain_app 1 p m r 1) by (try assumption; try lia; rewrite (in_range_length _ _ Hx); apply length_pdims).
    rewrite (chain_app 1 p m r' 1) by (try assumption; try lia; rewrite (in_range_length _ _ Hx'); apply length_pdims).
    rewrite sum_conj, sum_mul_r, sum_mul_r. apply sum_ext. intros a Ha. rewrite sum_mul_l. apply sum_ext. intros a' Ha'. rewrite kconj_mul. ring.
  - rewrite (sumcfg_ext (pdims p) _ (fun x => sumcfg (pdims p) (fun x' => sumcfg (pdims r) (fun y => sumcfg (pdims r') (fun y' =>
     sum m (fun a => sum m (fun a' => (kconj (chain p x 0 a) * h1 x x' * chain p x' 0 a') * (kconj (chain r y a 0) * h2 y y' * chain r' y' a' 0)))))))).
    2:{ intros x Hx. apply sumcfg_swap. }
    transitivity (sumcfg (pdims p) (fun x => sumcfg (pdims p) (fun x' => sum m (fun a => sum m (fun a' => (kconj (chain p x 0 a) * h1 x x' * chain p x' 0 a') * Rc r r' h2 a a'))))).
    + apply sumcfg_ext. intros x Hx. apply sumcfg_ext. intros x' Hx'.
      rewrite (sumcfg_ext (pdims r) _ (fun y => sum m (fun a => sum m (fun a' => sumcfg (pdims r') (fun y' => (kconj (chain p x 0 a) * h1 x x' * chain p x' 0 a') * (kconj (chain r y a 0) * h2 y y' * chain r' y' a' 0)))))).
      2:{ intros y Hy. rewrite sumcfg_sum_swap. apply sum_ext. intros a Ha. apply sumcfg_sum_swap. }
      rewrite sumcfg_sum_swap. apply sum_ext. intros a Ha. rewrite sumcfg_sum_swap. apply sum_ext. intros a' Ha'.
      unfold Rc. rewrite sumcfg_mul_l. apply sumcfg_ext. intros y Hy. rewrite sumcfg_mul_l. reflexivity.
    + rewrite (sumcfg_ext (pdims p) _ (fun x => sum m (fun a => sum m (fun a' => sumcfg (pdims p) (fun x' => (kconj (chain p x 0 a) * h1 x x' * chain p x' 0 a') * Rc r r' h2 a a'))))).
      2:{ intros x Hx. rewrite sumcfg_sum_swap. apply sum_ext. intros a Ha. apply sumcfg_sum_swap. }
      rewrite sumcfg_sum_swap. apply sum_ext. intros a Ha. rewrite sumcfg_sum_swap. apply sum_ext. intros a' Ha'.
      unfold Lc. rewrite sumcfg_mul_r. apply sumcfg_ext. intros x Hx. rewrite sumcfg_mul_r. reflexivity.
Qed.

Lemma Rc_cons A A' q q' g o h l d c l' d' c' b b' : dims A = [l; d; c] -> dims A' = [l'; d'; c'] ->
  (forall i j x y, (i < d)%nat -> (j < d')%nat -> in_range (pdims q) x -> in_range (pdims q') y -> g (i :: x) (j :: y) = o i j * h x y) ->
  Rc (A :: q) (A' :: q') g b b' =
    sum d (fun i => sum d' (fun j => sum c (fun z => sum c' (fun z' => kconj (get A [b; i; z]) * (o i j * Rc q q' h z z') * get A' [b'; j; z'])))).
Proof.
  intros HA HA' Hg. unfold Rc at 1. cbn [pdims map]. unfold dim. rewrite HA, HA'. cbn [nth sumcfg].
  apply sum_ext. intros i Hi.
  rewrite (sumcfg_ext _ _ (fun x => sum d' (fun j => sumcfg (map (fun A => nth 1 (dims A) 0%nat) q') (fun y => sum c (fun z => sum c' (fun z' =>
     kconj (get A [b; i; z]) * (o i j * (kconj (chain q x z 0) * h x y * chain q' y z' 0)) * get A' [b'; j; z'])))))).
  - rewrite sumcfg_sum_swap. apply sum_ext. intros j Hj.
    rewrite (sumcfg_ext _ _ (fun x => sum c (fun z => sum c' (fun z' => sumcfg (map (fun A => nth 1 (dims A) 0%nat) q') (fun y =>
     kconj (get A [b; i; z]) * (o i j * (kconj (chain q x z 0) * h x y * chain q' y z' 0)) * get A' [b'; j; z']))))).
    2:{ intros x Hx. rewrite sumcfg_sum_swap. apply sum_ext. intros z Hz. apply sumcfg_sum_swap. }
    rewrite sumcfg_sum_swap. apply sum_ext. intros z Hz. rewrite sumcfg_sum_swap. apply sum_ext. intros z' Hz'.
    unfold Rc. rewrite sumcfg_mul_l, sumcfg_mul_l, sumcfg_mul_r. apply sumcfg_ext. intros x Hx. rewrite sumcfg_mul_l, sumcfg_mul_l, sumcfg_mul_r. apply sumcfg_ext. intros y Hy. ring.
  - intros x Hx. apply sum_ext. intros j Hj. apply sumcfg_ext. intros y Hy. cbn [chain]. unfold dim. rewrite HA, HA'. cbn [nth].
    rewrite (Hg i j x y Hi Hj Hx Hy). rewrite sum_conj, !sum_mul_r. apply sum_ext. intros z Hz. rewrite sum_mul_l. apply sum_ext. intros z' Hz'.
    rewrite kconj_mul. ring.
Qed.

Lemma chain_one A l d c i a b : dims A = [l; d; c] -> (b < c)%nat -> chain [A] [i] a b = get A [a; i; b].
Proof.
  intros HA Hb. cbn [chain]. unfold dim. rewrite HA. cbn [nth]. apply (sum_delta_r c b (fun z => get A [a; i; z]) Hb).
Qed.

Lemma Lc_snoc p A g o h m d c b b' : linked 1 p m -> dims A = [m; d; c] -> wf A -> (0 < d)%nat -> (0 < c)%nat -> (b < c)%nat -> (b' < c)%nat ->
  (forall i j x y, (i < d)%nat -> (j < d)%nat -> in_range (pdims p) x -> in_range (pdims p) y -> g (x ++ [i]) (y ++ [j]) = h x y * o i j) ->
  Lc (p ++ [A]) g b b' =
    sum d (fun i => sum d (fun j => sum m (fun z => sum m (fun z' => kconj (get A [z; i; b]) * (o i j * Lc p h z z') * get A [z'; j; b'])))).
Proof.
  intros Hp HA HwA Hd Hc Hb Hb' Hg. unfold Lc at 1. rewrite pdims_app. cbn [pdims map]. unfold dim at 1 2. rewrite HA. cbn [nth]. fold (pdims p).
  assert (HLA : linked m [A] c) by (exists d, c; cbn [linked]; auto).
  transitivity (sumcfg (pdims p) (fun x => sum d (fun i => sumcfg (pdims p) (fun y => sum d (fun j => sum m (fun z => sum m (fun z' =>
     kconj (get A [z; i; b]) * (o i j * (kconj (chain p x 0 z) * h x y * chain p y 0 z')) * get A [z'; j; b']))))))).
  - rewrite sumcfg_app. apply sumcfg_ext. intros x Hx. cbn [sumcfg]. apply sum_ext. intros i Hi.
    rewrite sumcfg_app. apply sumcfg_ext. intros y Hy. cbn [sumcfg]. apply sum_ext. intros j Hj. rewrite Hg by assumption.
    rewrite !(chain_app 1 p m [A] c) by (try assumption; try lia; match goal with |- length ?x = _ => rewrite (in_range_length (pdims p) x) by assumption end; apply length_pdims).
    rewrite sum_conj, !sum_mul_r. apply sum_ext. intros z Hz. rewrite sum_mul_l. apply sum_ext. intros z' Hz'.
    rewrite !(chain_one A m d c) by assumption. rewrite kconj_mul. ring.
  - rewrite sumcfg_sum_swap. apply sum_ext. intros i Hi.
    rewrite (sumcfg_ext _ _ (fun x => sum d (fun j => sum m (fun z => sum m (fun z' => sumcfg (pdims p) (fun y =>
      kconj (get A [z; i; b]) * (o i j * (kconj (chain p x 0 z) * h x y * chain p y 0 z')) * get A [z'; j; b'])))))).
    2:{ intros x Hx. rewrite sumcfg_sum_swap. apply sum_ext. intros j Hj. rewrite sumcfg_sum_swap. apply sum_ext. intros z Hz. apply sumcfg_sum_swap. }
    rewrite sumcfg_sum_swap. apply sum_ext. intros j Hj. rewrite sumcfg_sum_swap. apply sum_ext. intros z Hz. rewrite sumcfg_sum_swap. apply sum_ext. intros z' Hz'.
    unfold Lc. rewrite sumcfg_mul_l, sumcfg_mul_l, sumcfg_mul_r. apply sumcfg_ext. intros x Hx. rewrite sumcfg_mul_l, sumcfg_mul_l, sumcfg_mul_r. apply sumcfg_ext. intros y Hy. ring.
Qed.

End Split.
