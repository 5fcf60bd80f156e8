(** * C54: order of the products of exponentials that evolve_itime() applies in one step *)
From Coq Require Import Reals Lra Bool List Arith ZArith QArith Qreals Lia.
From Verif Require Import Scalar RScal RealInst TrotterSpec TrotterNorm ToolsModel.
Import ListNotations.
Local Open Scope R_scope.

(** The layers of one step as a product of exponentials exp(-dt c_i X_i): the factor c_i, and whether X_i is the sum of
    the terms on (0,1), (2,3), ...; the layer applied first is the rightmost factor *)
Definition step_formula (method : nat) : list (R * bool) := rev (map (fun p => (fst p, Nat.eqb (snd p) 0)) (itime_layers method)).

Lemma not_accurate l m eps w : (length w <= m)%nat -> close_q l eps w = false -> ~ accurate (to_r l) m (Q2R eps).
Proof. intros Hw Hc HA. specialize (HA w Hw). apply close_q_iff in HA. congruence. Qed.
Lemma q2r a b : Q2R (a # b) = (IZR a / IZR (Z.pos b))%R.
Proof. reflexivity. Qed.
Lemma Q2R_0 : Q2R 0 = 0%R.
Proof. unfold Q2R. cbn. lra. Qed.

(** method 0: exact to first order, not to second *)
Theorem C54_order_simple : accurate (step_formula 0) 1 0 /\ ~ accurate (step_formula 0) 2 (1 / 3).
Proof.
  assert (E : step_formula 0 = to_r [(1, false); (1, true)]%Q) by (unfold step_formula; cbn; rewrite !q2r; repeat f_equal; lra).
  rewrite E. split.
  - rewrite <- Q2R_0. apply accurate_q. vm_compute. reflexivity.
  - replace (1 / 3)%R with (Q2R (1 # 3)) by (rewrite q2r; reflexivity). apply (not_accurate _ _ _ [true; false]); [cbn; lia|vm_compute; reflexivity].
Qed.
(** method 1: exact to second order, not to third *)
Theorem C54_order_symmetric : accurate (step_formula 1) 2 0 /\ ~ accurate (step_formula 1) 3 (1 / 24).
Proof.
  assert (E : step_formula 1 = to_r [(1 # 2, true); (1, false); (1 # 2, true)]%Q) by (unfold step_formula; cbn; rewrite !q2r; repeat f_equal; lra).
  rewrite E. split.
  - rewrite <- Q2R_0. apply accurate_q. vm_compute. reflexivity.
  - replace (1 / 24)%R with (Q2R (1 # 24)) by (rewrite q2r; reflexivity). apply (not_accurate _ _ _ [false; true; false]); [cbn; lia|vm_compute; reflexivity].
Qed.
(** the other methods (the default is 2): fourth order up to the rounding of the constants (3e-15), not fifth *)
Theorem C54_order_forest_ruth method : (2 <= method)%nat ->
  accurate (step_formula method) 4 (3 / 10 ^ 15) /\ ~ accurate (step_formula method) 5 (1 / 10).
Proof.
  intros Hm. destruct method as [|[|method]]; try lia.
  set (a := 67560359597983 # 100000000000000). set (b := 135120719195966 # 100000000000000). set (c := -17560359597983 # 100000000000000). set (d := -170241438391932 # 100000000000000).
  assert (E : step_formula (S (S method)) = to_r [(a, true); (b, false); (c, true); (d, false); (c, true); (b, false); (a, true)]%Q).
  { unfold step_formula. cbn. unfold a, b, c, d. rewrite !q2r. repeat f_equal; lra. }
  rewrite E. split.
  - replace (3 / 10 ^ 15)%R with (Q2R (3 # 1000000000000000)) by (rewrite q2r; lra). apply accurate_q. vm_compute. reflexivity.
  - replace (1 / 10)%R with (Q2R (1 # 10)) by (rewrite q2r; reflexivity).
    apply (not_accurate _ _ _ [false; true; false; true; false]); [cbn; lia|vm_compute; reflexivity].
Qed.
