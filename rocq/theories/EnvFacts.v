(** Environments (prop_matrix) represent sums over all configurations of the visited sites. *)
From Coq Require Import Bool List Arith ZArith Lia Ring.
From Verif Require Import Scalar ScalarFacts Tensor TensorFacts Spec MpsModel MpsFacts.
Import ListNotations.
Local Open Scope K_scope.

Section Facts.
Context {SC : Scalar}.
Add Ring Kring : k_ring.

Definition opel (o : option tensor) (i j : nat) : K :=
  match o with Some t => get t [i; j] | None => delta i j end.

Fixpoint prodop (ops : list (option tensor)) (is js : list nat) : K :=
  match ops, is, js with
  | [], [], [] => 1
  | o :: ops', i :: is', j :: js' => opel o i j * prodop ops' is' js'
  | _, _, _ => 0
  end.

Definition op_ok (o : option tensor) (m n : nat) : Prop :=
  match o with Some t => dims t = [m; n] | None => m = n end.

Fixpoint ops_ok (p q : mps) (ops : list (option tensor)) : Prop :=
  match p, q, ops with
  | [], [], [] => True
  | A :: p', B :: q', o :: ops' => op_ok o (dim A 1) (dim B 1) /\ ops_ok p' q' ops'
  | _, _, _ => False
  end.

Lemma ops_ok_length p q ops : ops_ok p q ops -> length q = length p /\ length ops = length p.
Proof.
  revert q ops. induction p as [|A p IH]; intros [|B q] [|o ops]; cbn; try tauto.
  intros (_ & H). apply IH in H. lia.
Qed.

Lemma ops_ok_app p1 q1 o1 p2 q2 o2 :
  ops_ok p1 q1 o1 -> ops_ok p2 q2 o2 -> ops_ok (p1 ++ p2) (q1 ++ q2) (o1 ++ o2).
Proof.
  revert q1 o1. induction p1 as [|A p IH]; intros [|B q] [|o ops]; cbn; try tauto.
  intros (H1 & H2) H3. auto.
Qed.

(** One site transfer matrix *)
Definition E1 (Q P : tensor) (o : option tensor) (x y z w : nat) : K :=
  sum (dim Q 1) (fun i => sum (dim P 1) (fun j =>
    kconj (get Q [x; i; z]) * opel o i j * get P [y; j; w])).

(** Transfer matrix of a segment *)
Definition TM (p q : mps) (ops : list (option tensor)) (x y z w : nat) : K :=
  sumcfg (pdims p) (fun is => sumcfg (pdims q) (fun js =>
    kconj (chain p is x z) * prodop ops is js * chain q js y w)).

Lemma sumcfg4_factor ds1 ds2 es1 es2 m n
  (f g : nat -> nat -> list nat -> list nat -> K) :
  sumcfg ds1 (fun i1 => sumcfg ds2 (fun i2 => sumcfg es1 (fun j1 => sumcfg es2 (fun j2 =>
     sum m (fun c => sum n (fun d => f c d i1 j1 * g c d i2 j2)))))) =
  sum m (fun c => sum n (fun d =>
     sumcfg ds1 (fun i1 => sumcfg es1 (fun j1 => f c d i1 j1)) *
     sumcfg ds2 (fun i2 => sumcfg es2 (fun j2 => g c d i2 j2)))).
Proof.
  transitivity (sumcfg ds1 (fun i1 => sumcfg ds2 (fun i2 => sum m (fun c => sum n (fun d =>
     sumcfg es1 (fun j1 => f c d i1 j1) * sumcfg es2 (fun j2 => g c d i2 j2)))))).
  { apply sumcfg_ext. intros i1 _. apply sumcfg_ext. intros i2 _.
    transitivity (sumcfg es1 (fun j1 => sum m (fun c => sum n (fun d =>
      f c d i1 j1 * sumcfg es2 (fun j2 => g c d i2 j2))))).
    { apply sumcfg_ext. intros j1 _. rewrite sumcfg_sum_swap. apply sum_ext. intros c _.
      rewrite sumcfg_sum_swap. apply sum_ext. intros d _. rewrite <- sumcfg_mul_l. reflexivity. }
    rewrite sumcfg_sum_swap. apply sum_ext. intros c _.
    rewrite sumcfg_sum_swap. apply sum_ext. intros d _. rewrite <- sumcfg_mul_r. reflexivity. }
  transitivity (sumcfg ds1 (fun i1 => sum m (fun c => sum n (fun d =>
     sumcfg es1 (fun j1 => f c d i1 j1) * sumcfg ds2 (fun i2 => sumcfg es2 (fun j2 => g c d i2 j2)))))).
  { apply sumcfg_ext. intros i1 _.
    rewrite sumcfg_sum_swap. apply sum_ext. intros c _.
    rewrite sumcfg_sum_swap. apply sum_ext. intros d _. rewrite <- sumcfg_mul_l. reflexivity. }
  rewrite sumcfg_sum_swap. apply sum_ext. intros c _.
  rewrite sumcfg_sum_swap. apply sum_ext. intros d _. rewrite <- sumcfg_mul_r. reflexivity.
Qed.

Lemma prodop_app o1 o2 i1 i2 j1 j2 : length i1 = length o1 -> length j1 = length o1 ->
  prodop (o1 ++ o2) (i1 ++ i2) (j1 ++ j2) = prodop o1 i1 j1 * prodop o2 i2 j2.
Proof.
  revert i1 j1. induction o1 as [|o o1 IH]; intros [|i i1] [|j j1] Hi Hj; cbn in *; try discriminate.
  - ring.
  - rewrite IH by lia. ring.
Qed.

Lemma TM_app la lb p1 q1 o1 ma mb p2 q2 o2 ra rb x y z w :
  linked la p1 ma -> linked lb q1 mb -> linked ma p2 ra -> linked mb q2 rb ->
  ops_ok p1 q1 o1 -> (x < la)%nat -> (y < lb)%nat ->
  TM (p1 ++ p2) (q1 ++ q2) (o1 ++ o2) x y z w =
  sum ma (fun c => sum mb (fun d => TM p1 q1 o1 x y c d * TM p2 q2 o2 c d z w)).
Proof.
  intros H1 H2 H3 H4 Ho Hx Hy. unfold TM. rewrite !pdims_app.
  destruct (ops_ok_length _ _ _ Ho) as (Hl1 & Hl2).
  rewrite sumcfg_app.
  transitivity (sumcfg (pdims p1) (fun i1 => sumcfg (pdims p2) (fun i2 =>
    sumcfg (pdims q1) (fun j1 => sumcfg (pdims q2) (fun j2 =>
      sum ma (fun c => sum mb (fun d =>
        (kconj (chain p1 i1 x c) * prodop o1 i1 j1 * chain q1 j1 y d) *
        (kconj (chain p2 i2 c z) * prodop o2 i2 j2 * chain q2 j2 d w)))))))).
  - apply sumcfg_ext. intros i1 Hi1. apply sumcfg_ext. intros i2 Hi2.
    rewrite sumcfg_app. apply sumcfg_ext. intros j1 Hj1. apply sumcfg_ext. intros j2 Hj2.
    apply in_range_length in Hi1, Hj1. rewrite length_pdims in Hi1, Hj1.
    rewrite (chain_app la p1 ma p2 ra) by assumption.
    rewrite (chain_app lb q1 mb q2 rb) by assumption.
    rewrite prodop_app by lia.
    rewrite sum_conj, !sum_mul_r. apply sum_ext. intros c Hc.
    rewrite sum_mul_l. apply sum_ext. intros d Hd. rewrite kconj_mul. ring.
  - apply (sumcfg4_factor (pdims p1) (pdims p2) (pdims q1) (pdims q2) ma mb
      (fun c d i1 j1 => kconj (chain p1 i1 x c) * prodop o1 i1 j1 * chain q1 j1 y d)
      (fun c d i2 j2 => kconj (chain p2 i2 c z) * prodop o2 i2 j2 * chain q2 j2 d w)).
Qed.

Lemma TM_single A B o x y z w l1 d1 c1 l2 d2 c2 :
  dims A = [l1; d1; c1] -> dims B = [l2; d2; c2] -> (z < c1)%nat -> (w < c2)%nat ->
  TM [A] [B] [o] x y z w = E1 A B o x y z w.
Proof.
  intros HA HB Hz Hw. unfold TM, E1. cbn [pdims map sumcfg].
  apply sum_ext. intros i Hi. apply sum_ext. intros j Hj.
  cbn [chain prodop]. unfold dim. rewrite HA, HB. cbn [nth].
  rewrite !sum_delta_r by assumption. ring.
Qed.

(** ** Elements of prop_init, prop_right, prop_left *)
Lemma prop_init_dims Q P o a1 dq a2 b1 dp b2 :
  dims Q = [a1; dq; a2] -> dims P = [b1; dp; b2] -> op_ok o dq dp ->
  dims (prop_init Q P o) = [a1; b1; a2; b2].
Proof.
  intros HQ HP Ho. unfold prop_init. destruct o as [t|]; cbn in Ho.
  - unfold permute, foldc, fold, rank. cbn [dims mk tconj]. rewrite HQ, HP, Ho. reflexivity.
  - unfold permute, foldc, fold, rank. cbn [dims mk tconj]. rewrite HQ, HP. reflexivity.
Qed.

Lemma prop_init_get Q P o a1 dq a2 b1 dp b2 x y z w :
  dims Q = [a1; dq; a2] -> dims P = [b1; dp; b2] -> op_ok o dq dp ->
  (x < a1)%nat -> (y < b1)%nat -> (z < a2)%nat -> (w < b2)%nat ->
  get (prop_init Q P o) [x; y; z; w] = E1 Q P o x y z w.
Proof.
  intros HQ HP Ho Hx Hy Hz Hw. unfold prop_init, E1, dim. rewrite HQ, HP. cbn [nth].
  destruct o as [t|]; cbn in Ho.
  - set (X := fold t 1 P 1).
    assert (HX : dims X = [dq; b1; b2]) by (unfold X, fold, rank; rewrite Ho, HP; reflexivity).
    set (M := foldc Q 1 X 0).
    assert (HM : dims M = [a1; a2; b1; b2])
      by (unfold M, foldc, fold, rank; cbn [dims tconj]; rewrite HQ, HX; reflexivity).
    unfold permute. rewrite HM. cbn [swap_nth replace_nth nth].
    rewrite get_mk by (apply in_range_4; assumption). cbn [swap_nth replace_nth nth].
    unfold M, foldc, fold, rank, dim. cbn [dims tconj]. rewrite HQ, HX.
    cbn [remove_nth app nth length Nat.sub].
    rewrite get_mk by (apply in_range_4; assumption). cbn [firstn skipn insert_nth].
    apply sum_ext. intros i Hi. rewrite get_tconj.
    assert (HgX : get X [i; y; w] = sum dp (fun j => get t [i; j] * get P [y; j; w])).
    { unfold X, fold, rank, dim. rewrite Ho, HP. cbn [remove_nth app nth length Nat.sub].
      rewrite get_mk by (apply in_range_3; assumption). reflexivity. }
    rewrite HgX, sum_mul_l. apply sum_ext. intros j Hj. cbn [opel]. ring.
  - subst dp. set (M := foldc Q 1 P 1).
    assert (HM : dims M = [a1; a2; b1; b2])
      by (unfold M, foldc, fold, rank; cbn [dims tconj]; rewrite HQ, HP; reflexivity).
    unfold permute. rewrite HM. cbn [swap_nth replace_nth nth].
    rewrite get_mk by (apply in_range_4; assumption). cbn [swap_nth replace_nth nth].
    unfold M, foldc, fold, rank, dim. cbn [dims tconj]. rewrite HQ, HP.
    cbn [remove_nth app nth length Nat.sub].
    rewrite get_mk by (apply in_range_4; assumption). cbn [firstn skipn insert_nth].
    apply sum_ext. intros i Hi. rewrite get_tconj. cbn [opel].
    rewrite (sum_ext dq _ (fun j => delta i j * (kconj (get Q [x; i; z]) * get P [y; j; w])))
      by (intros; ring).
    rewrite sum_delta_l' by assumption. reflexivity.
Qed.

Lemma wf_prop_init Q P o : wf (prop_init Q P o).
Proof. unfold prop_init, permute. apply wf_mk. Qed.

Lemma in_range_5 a b c d e i j k l m : (i < a)%nat -> (j < b)%nat -> (k < c)%nat -> (l < d)%nat ->
  (m < e)%nat -> in_range [a;b;c;d;e] [i;j;k;l;m].
Proof. repeat constructor; assumption. Qed.

Lemma prop_right4_dims M0 Q P o p q a1 b1 dq a2 dp b2 :
  dims M0 = [p; q; a1; b1] -> dims Q = [a1; dq; a2] -> dims P = [b1; dp; b2] ->
  dims (prop_right4 M0 Q P o) = [p; q; a2; b2].
Proof.
  intros HM HQ HP. unfold prop_right4, fold at 1, dim. rewrite HM, HQ, HP. reflexivity.
Qed.

Lemma prop_right4_get M0 Q P o p q a1 b1 dq a2 dp b2 x y z w :
  dims M0 = [p; q; a1; b1] -> dims Q = [a1; dq; a2] -> dims P = [b1; dp; b2] -> op_ok o dq dp ->
  (x < p)%nat -> (y < q)%nat -> (z < a2)%nat -> (w < b2)%nat ->
  get (prop_right4 M0 Q P o) [x; y; z; w] =
  sum a1 (fun a => sum b1 (fun b => get M0 [x; y; a; b] * E1 Q P o a b z w)).
Proof.
  intros HM HQ HP Ho Hx Hy Hz Hw.
  set (M := match o with
           | Some t => fold M0 2 (fold t 0 (tconj Q) 1) 1
           | None => fold M0 2 (tconj Q) 0
           end).
  assert (HMd : dims M = [p; q; b1; dp; a2]).
  { unfold M. destruct o as [t|]; cbn in Ho; unfold fold, rank; cbn [dims mk tconj];
      [rewrite HM, Ho, HQ|rewrite HM, HQ, Ho]; reflexivity. }
  assert (HMg : forall b j, (b < b1)%nat -> (j < dp)%nat ->
     get M [x; y; b; j; z] =
     sum a1 (fun a => get M0 [x; y; a; b] * sum dq (fun i => kconj (get Q [a; i; z]) * opel o i j))).
  { intros b j Hb Hj. unfold M. destruct o as [t|]; cbn in Ho.
    - set (X := fold t 0 (tconj Q) 1).
      assert (HX : dims X = [dp; a1; a2])
        by (unfold X, fold, rank; cbn [dims tconj]; rewrite Ho, HQ; reflexivity).
      unfold fold, rank, dim. rewrite HM, HX. cbn [remove_nth app nth length Nat.sub].
      rewrite get_mk by (apply in_range_5; assumption). cbn [firstn skipn insert_nth].
      apply sum_ext. intros a Ha. f_equal.
      unfold X, fold, rank, dim. cbn [dims tconj]. rewrite Ho, HQ.
      cbn [remove_nth app nth length Nat.sub].
      rewrite get_mk by (apply in_range_3; assumption). cbn [firstn skipn insert_nth].
      apply sum_ext. intros i Hi. rewrite get_tconj. cbn [opel]. ring.
    - subst dp. unfold fold, rank, dim. cbn [dims tconj]. rewrite HM, HQ.
      cbn [remove_nth app nth length Nat.sub].
      rewrite get_mk by (apply in_range_5; assumption). cbn [firstn skipn insert_nth].
      apply sum_ext. intros a Ha. f_equal. rewrite get_tconj. cbn [opel].
      rewrite sum_delta_r by assumption. reflexivity. }
  assert (Heq : prop_right4 M0 Q P o =
          fold (reshape M [p; q; (b1 * dp)%nat; a2]) 2 (reshape P [(b1 * dp)%nat; b2]) 0).
  { unfold prop_right4. fold M. unfold dim. rewrite HM, HQ, HP. reflexivity. }
  rewrite Heq. unfold fold, rank, dim. cbn [dims reshape].
  cbn [remove_nth app nth length Nat.sub].
  rewrite get_mk by (apply in_range_4; assumption). cbn [firstn skipn insert_nth].
  rewrite sum_merge.
  transitivity (sum dp (fun j => sum b1 (fun b =>
     sum a1 (fun a => get M0 [x; y; a; b] *
        sum dq (fun i => kconj (get Q [a; i; z]) * opel o i j)) * get P [b; j; w]))).
  { apply sum_ext. intros j Hj. apply sum_ext. intros b Hb.
    rewrite (get_reshape M _ _ [x; y; b; j; z]) by (rewrite HMd; cbn; ring).
    rewrite (get_reshape P _ _ [b; j; w]) by (rewrite HP; cbn; ring).
    rewrite HMg by assumption. reflexivity. }
  transitivity (sum dp (fun j => sum b1 (fun b => sum a1 (fun a => 
     get M0 [x; y; a; b] * (sum dq (fun i => kconj (get Q [a; i; z]) * opel o i j) * get P [b; j; w]))))).
  { apply sum_ext. intros j Hj. apply sum_ext. intros b Hb. rewrite sum_mul_r.
    apply sum_ext. intros a Ha. ring. }
  rewrite sum_swap.
  transitivity (sum b1 (fun b => sum a1 (fun a => get M0 [x; y; a; b] * E1 Q P o a b z w))).
  2:{ apply sum_swap. }
  apply sum_ext. intros b Hb. rewrite sum_swap. apply sum_ext. intros a Ha.
  rewrite <- sum_mul_l. f_equal. unfold E1, dim. rewrite HQ, HP. cbn [nth].
  rewrite sum_swap. apply sum_ext. intros j Hj. rewrite sum_mul_r. reflexivity.
Qed.

Lemma prop_left4_dims M0 Q P o p q a1 b1 a0 dq b0 dp :
  dims M0 = [a1; b1; p; q] -> dims Q = [a0; dq; a1] -> dims P = [b0; dp; b1] ->
  dims (prop_left4 M0 Q P o) = [a0; b0; p; q].
Proof.
  intros HM HQ HP. unfold prop_left4, foldc, fold at 1, dim. rewrite HM, HQ, HP. reflexivity.
Qed.

Lemma prop_left4_get M0 Q P o p q a1 b1 a0 dq b0 dp x y z w :
  dims M0 = [a1; b1; p; q] -> dims Q = [a0; dq; a1] -> dims P = [b0; dp; b1] -> op_ok o dq dp ->
  (dq = dp) ->
  (x < a0)%nat -> (y < b0)%nat -> (z < p)%nat -> (w < q)%nat ->
  get (prop_left4 M0 Q P o) [x; y; z; w] =
  sum a1 (fun a => sum b1 (fun b => E1 Q P o x y a b * get M0 [a; b; z; w])).
Proof.
  intros HM HQ HP Ho Hsq Hx Hy Hz Hw. subst dq.
  set (M := match o with
           | Some o => fold (fold P 1 o (rank o - 1)) 1 M0 1
           | None => fold P 2 M0 1
           end).
  assert (HMd : dims M = [b0; dp; a1; p; q]).
  { unfold M. destruct o as [t|]; cbn in Ho; unfold fold, rank; cbn [dims mk tconj];
      [rewrite HM, Ho, HP|rewrite HM, HP]; reflexivity. }
  assert (HMg : forall i a, (i < dp)%nat -> (a < a1)%nat ->
     get M [y; i; a; z; w] =
     sum b1 (fun b => sum dp (fun j => opel o i j * get P [y; j; b]) * get M0 [a; b; z; w])).
  { intros i a Hi Ha. unfold M. destruct o as [t|]; cbn in Ho.
    - set (X := fold P 1 t (rank t - 1)).
      assert (HX : dims X = [b0; b1; dp])
        by (unfold X, fold, rank; rewrite Ho, HP; reflexivity).
      unfold fold, rank, dim. rewrite HM, HX. cbn [remove_nth app nth length Nat.sub].
      rewrite get_mk by (apply in_range_5; assumption). cbn [firstn skipn insert_nth].
      apply sum_ext. intros b Hb. f_equal.
      unfold X, fold, rank, dim. rewrite Ho, HP.
      cbn [remove_nth app nth length Nat.sub].
      rewrite get_mk by (apply in_range_3; assumption). cbn [firstn skipn insert_nth].
      apply sum_ext. intros j Hj. cbn [opel]. ring.
    - unfold fold, rank, dim. rewrite HM, HP.
      cbn [remove_nth app nth length Nat.sub].
      rewrite get_mk by (apply in_range_5; assumption). cbn [firstn skipn insert_nth].
      apply sum_ext. intros b Hb. f_equal. cbn [opel].
      rewrite sum_delta_l' by assumption. reflexivity. }
  assert (Heq : prop_left4 M0 Q P o =
          foldc (reshape Q [a0; (dp * a1)%nat]) 1 (reshape M [b0; (dp * a1)%nat; p; q]) 1).
  { unfold prop_left4. fold M. unfold dim. rewrite HM, HQ, HP. reflexivity. }
  rewrite Heq. unfold foldc, fold, rank, dim. cbn [dims reshape tconj].
  cbn [remove_nth app nth length Nat.sub].
  rewrite get_mk by (apply in_range_4; assumption). cbn [firstn skipn insert_nth].
  rewrite sum_merge.
  apply sum_ext. intros a Ha.
  transitivity (sum dp (fun i => sum b1 (fun b =>
     kconj (get Q [x; i; a]) * sum dp (fun j => opel o i j * get P [y; j; b]) * get M0 [a; b; z; w]))).
  { apply sum_ext. intros i Hi.
    change (mkT [a0; (dp * a1)%nat] (map kconj (data Q))) with (tconj (reshape Q [a0; (dp * a1)%nat])).
    rewrite get_tconj.
    rewrite (get_reshape M _ _ [y; i; a; z; w]) by (rewrite HMd; cbn; ring).
    rewrite (get_reshape Q _ _ [x; i; a]) by (rewrite HQ; cbn; ring).
    rewrite HMg by assumption. rewrite sum_mul_l. apply sum_ext. intros b Hb. ring. }
  rewrite sum_swap. apply sum_ext. intros b Hb. rewrite <- sum_mul_r. f_equal.
  unfold E1, dim. rewrite HQ, HP. cbn [nth]. apply sum_ext. intros i Hi.
  rewrite sum_mul_l. apply sum_ext. intros j Hj. ring.
Qed.

(** ** Environments of segments *)
Definition env_ok (la lb : nat) (p q : mps) (ops : list (option tensor)) (ra rb : nat)
  (M : tensor) : Prop :=
  wf M /\ dims M = [la; lb; ra; rb] /\ (0 < la)%nat /\ (0 < lb)%nat /\ (0 < ra)%nat /\ (0 < rb)%nat /\
  forall x y z w, (x < la)%nat -> (y < lb)%nat -> (z < ra)%nat -> (w < rb)%nat ->
    get M [x; y; z; w] = TM p q ops x y z w.

Lemma env_ok_nonempty la lb p q ops ra rb M : env_ok la lb p q ops ra rb M ->
  is_empty M = false /\ rank M = 4%nat.
Proof.
  intros (Hw & Hd & H1 & H2 & H3 & H4 & _). split.
  - apply is_empty_wf; [exact Hw|]. rewrite Hd. cbn. nia.
  - unfold rank. rewrite Hd. reflexivity.
Qed.

Lemma env_init A B o la da ra lb db rb sense :
  dims A = [la; da; ra] -> dims B = [lb; db; rb] -> op_ok o da db ->
  (0 < la)%nat -> (0 < lb)%nat -> (0 < ra)%nat -> (0 < rb)%nat ->
  env_ok la lb [A] [B] [o] ra rb (prop_matrix empty sense A B o).
Proof.
  intros HA HB Ho H1 H2 H3 H4. unfold prop_matrix. cbn [is_empty empty data].
  split; [apply wf_prop_init|]. split; [eapply prop_init_dims; eauto|].
  repeat split; auto. intros x y z w Hx Hy Hz Hw.
  rewrite (prop_init_get A B o la da ra lb db rb) by assumption.
  symmetry. eapply TM_single; eauto.
Qed.

Lemma env_step_right A B o la lb p q ops ma mb M da ra db rb :
  linked la p ma -> linked lb q mb -> ops_ok p q ops ->
  dims A = [ma; da; ra] -> dims B = [mb; db; rb] -> wf A -> wf B -> op_ok o da db ->
  (0 < da)%nat -> (0 < db)%nat ->
  (0 < ra)%nat -> (0 < rb)%nat ->
  env_ok la lb p q ops ma mb M ->
  env_ok la lb (p ++ [A]) (q ++ [B]) (ops ++ [o]) ra rb (prop_matrix M 1 A B o).
Proof.
  intros Hp Hq Hops HA HB HwA HwB Ho Hda Hdb Hra Hrb HM.
  destruct (env_ok_nonempty _ _ _ _ _ _ _ _ HM) as (Hne & Hrk).
  destruct HM as (Hw & Hd & H1 & H2 & H3 & H4 & Hg).
  unfold prop_matrix, prop_right. rewrite Hne, Hrk. cbn [Z.ltb Z.compare Nat.eqb].
  split; [unfold prop_right4; apply wf_mk|].
  split; [eapply prop_right4_dims; eauto|].
  repeat split; auto. intros x y z w Hx Hy Hz Hww.
  rewrite (prop_right4_get M A B o la lb ma mb da ra db rb) by assumption.
  rewrite (TM_app la lb p q ops ma mb [A] [B] [o] ra rb); auto.
  2:{ cbn. exists da, ra. auto. }
  2:{ cbn. exists db, rb. auto. }
  apply sum_ext. intros a Ha. apply sum_ext. intros b Hb. rewrite Hg by assumption.
  f_equal. symmetry. eapply TM_single; eauto.
Qed.

Lemma env_step_left A B o la lb p q ops ma mb ra rb M da db :
  linked ma p ra -> linked mb q rb -> ops_ok p q ops ->
  dims A = [la; da; ma] -> dims B = [lb; db; mb] -> wf A -> wf B -> op_ok o da db -> da = db ->
  (0 < da)%nat -> (0 < la)%nat -> (0 < lb)%nat ->
  env_ok ma mb p q ops ra rb M ->
  env_ok la lb (A :: p) (B :: q) (o :: ops) ra rb (prop_matrix M (-1) A B o).
Proof.
  intros Hp Hq Hops HA HB HwA HwB Ho Hdd Hda Hla Hlb HM.
  destruct (env_ok_nonempty _ _ _ _ _ _ _ _ HM) as (Hne & Hrk).
  destruct HM as (Hw & Hd & H1 & H2 & H3 & H4 & Hg).
  unfold prop_matrix, prop_left. rewrite Hne, Hrk. cbn [Z.ltb Z.compare Nat.eqb].
  split; [unfold prop_left4, foldc; apply wf_mk|].
  split; [eapply prop_left4_dims; eauto|].
  repeat split; auto. intros x y z w Hx Hy Hz Hww.
  rewrite (prop_left4_get M A B o ra rb ma mb la da lb db) by assumption.
  change (A :: p) with ([A] ++ p). change (B :: q) with ([B] ++ q). change (o :: ops) with ([o] ++ ops).
  rewrite (TM_app la lb [A] [B] [o] ma mb p q ops ra rb); auto.
  2:{ cbn. exists da, ma. auto. }
  2:{ cbn. exists db, mb. repeat split; auto. lia. }
  2:{ cbn. unfold dim. rewrite HA, HB. cbn. auto. }
  apply sum_ext. intros a Ha. apply sum_ext. intros b Hb. rewrite Hg by assumption.
  f_equal. symmetry. eapply TM_single; eauto.
Qed.

(** Whole loops; [ops] is the list of operators used at the visited sites. *)
Fixpoint envR (p q : mps) (ops : list (option tensor)) (M : tensor) : tensor :=
  match p, q, ops with
  | A :: p', B :: q', o :: ops' => envR p' q' ops' (prop_matrix M 1 A B o)
  | _, _, _ => M
  end.

Fixpoint envL (p q : mps) (ops : list (option tensor)) (M : tensor) : tensor :=
  match p, q, ops with
  | A :: p', B :: q', o :: ops' => prop_matrix (envL p' q' ops' M) (-1) A B o
  | _, _, _ => M
  end.

Lemma envR_ok_from la lb p1 q1 o1 ma mb p2 q2 o2 ra rb M :
  linked la p1 ma -> linked lb q1 mb -> ops_ok p1 q1 o1 ->
  linked ma p2 ra -> linked mb q2 rb -> ops_ok p2 q2 o2 ->
  env_ok la lb p1 q1 o1 ma mb M ->
  env_ok la lb (p1 ++ p2) (q1 ++ q2) (o1 ++ o2) ra rb (envR p2 q2 o2 M).
Proof.
  revert p1 q1 o1 ma mb q2 o2 M.
  induction p2 as [|A p2 IH]; intros p1 q1 o1 ma mb [|B q2] [|o o2] M Hp1 Hq1 Ho1 Hp2 Hq2 Ho2 HM;
    cbn in Ho2; try tauto.
  - cbn in Hp2, Hq2. subst. rewrite !app_nil_r. exact HM.
  - destruct Hp2 as (da & ca & A1 & A2 & A3 & A4 & A5).
    destruct Hq2 as (db & cb & B1 & B2 & B3 & B4 & B5).
    destruct Ho2 as (Ho & Ho2).
    assert (Hopk : op_ok o da db) by (unfold dim in Ho; rewrite A1, B1 in Ho; exact Ho).
    cbn [envR].
    replace (p1 ++ A :: p2) with ((p1 ++ [A]) ++ p2) by (rewrite <- app_assoc; reflexivity).
    replace (q1 ++ B :: q2) with ((q1 ++ [B]) ++ q2) by (rewrite <- app_assoc; reflexivity).
    replace (o1 ++ o :: o2) with ((o1 ++ [o]) ++ o2) by (rewrite <- app_assoc; reflexivity).
    apply (IH _ _ _ ca cb); auto.
    + apply linked_app. exists ma. split; [auto|]. cbn. exists da, ca. auto.
    + apply linked_app. exists mb. split; [auto|]. cbn. exists db, cb. auto.
    + apply ops_ok_app; [exact Ho1|]. cbn. auto.
    + eapply env_step_right; eauto.
Qed.

Lemma envR_ok la lb p q ops ra rb :
  p <> [] -> (0 < la)%nat -> (0 < lb)%nat ->
  linked la p ra -> linked lb q rb -> ops_ok p q ops ->
  env_ok la lb p q ops ra rb (envR p q ops empty).
Proof.
  destruct p as [|A p]; [congruence|]. intros _ Hla Hlb Hp Hq Ho.
  destruct q as [|B q]; [destruct ops; cbn in Ho; tauto|].
  destruct ops as [|o ops]; [cbn in Ho; tauto|].
  cbn [envR].
  destruct Hp as (da & ca & A1 & A2 & A3 & A4 & A5).
  destruct Hq as (db & cb & B1 & B2 & B3 & B4 & B5).
  destruct Ho as (Ho & Hops).
  assert (Hopk : op_ok o da db) by (unfold dim in Ho; rewrite A1, B1 in Ho; exact Ho).
  apply (envR_ok_from la lb [A] [B] [o] ca cb p q ops ra rb); auto.
  - cbn. exists da, ca. auto.
  - cbn. exists db, cb. auto.
  - cbn. auto.
  - eapply env_init; eauto.
Qed.

(** Segments with equal physical dimensions in bra and ket *)
Lemma envL_ok la lb p q ops ra rb :
  p <> [] -> (0 < la)%nat -> (0 < lb)%nat -> pdims p = pdims q ->
  linked la p ra -> linked lb q rb -> ops_ok p q ops ->
  env_ok la lb p q ops ra rb (envL p q ops empty).
Proof.
  revert la lb q ops. induction p as [|A p IH]; [congruence|].
  intros la lb q ops _ Hla Hlb Hpd Hp Hq Ho.
  destruct q as [|B q]; [destruct ops; cbn in Ho; tauto|].
  destruct ops as [|o ops]; [cbn in Ho; tauto|].
  cbn [envL].
  destruct Hp as (da & ca & A1 & A2 & A3 & A4 & A5).
  destruct Hq as (db & cb & B1 & B2 & B3 & B4 & B5).
  destruct Ho as (Ho & Hops).
  assert (Hopk : op_ok o da db) by (unfold dim in Ho; rewrite A1, B1 in Ho; exact Ho).
  cbn in Hpd. injection Hpd as Hd1 Hpd. unfold dim in Hd1; rewrite A1, B1 in Hd1; cbn in Hd1.
  destruct p as [|A' p].
  - destruct q as [|B' q]; [|destruct ops; cbn in Hops; tauto].
    destruct ops as [|o' ops]; [|cbn in Hops; tauto].
    cbn in A5, B5. subst. cbn [envL]. eapply env_init; eauto.
  - eapply env_step_left; eauto.
    apply IH; auto. congruence.
Qed.

(** ** Loops over site numbers *)
Lemma firstn_skipn_S {A} k n (l : list A) (d : A) : (k < length l)%nat ->
  firstn (S n) (skipn k l) = nth k l d :: firstn n (skipn (S k) l).
Proof.
  revert l. induction k as [|k IH]; intros [|x l] H; cbn in H; try lia; [reflexivity|].
  cbn [skipn nth]. apply IH. lia.
Qed.

Lemma envR_seq a b (op : nat -> option tensor) k n M :
  (k + n <= length a)%nat -> length b = length a ->
  fold_left (fun M k => prop_matrix M 1 (site a k) (site b k) (op k)) (seq k n) M =
  envR (firstn n (skipn k a)) (firstn n (skipn k b)) (map op (seq k n)) M.
Proof.
  revert k M. induction n as [|n IH]; intros k M H Hb; [reflexivity|].
  rewrite (firstn_skipn_S k n a empty), (firstn_skipn_S k n b empty) by lia.
  cbn [seq map fold_left envR]. rewrite IH by lia. reflexivity.
Qed.

Lemma envL_seq a b (op : nat -> option tensor) k n M :
  (k + n <= length a)%nat -> length b = length a ->
  fold_left (fun M k => prop_matrix M (-1) (site a k) (site b k) (op k)) (rev (seq k n)) M =
  envL (firstn n (skipn k a)) (firstn n (skipn k b)) (map op (seq k n)) M.
Proof.
  revert k M. induction n as [|n IH]; intros k M H Hb; [reflexivity|].
  rewrite (firstn_skipn_S k n a empty), (firstn_skipn_S k n b empty) by lia.
  cbn [seq map rev envL]. rewrite fold_left_app. cbn [fold_left]. rewrite IH by lia. reflexivity.
Qed.

(** ** Closing *)
Lemma nth0_get t : elem0 t = get t [] \/ exists d ds, dims t = d :: ds.
Proof.
  unfold elem0, get. destruct (dims t); [left; reflexivity|right; eauto].
Qed.

Lemma prop_close_value a b p q ops M :
  env_ok a b p q ops a b M ->
  elem0 (prop_close M) = sum a (fun x => sum b (fun y => TM p q ops x y x y)).
Proof.
  intros (Hw & Hd & H1 & H2 & H3 & H4 & Hg).
  unfold prop_close, dim. rewrite Hd. cbn [nth].
  unfold trace_ends, dim. cbn [dims reshape tl removelast nth].
  unfold elem0, mk. cbn [data nprod fold_right seq map nth unravel].
  rewrite sum_merge. rewrite sum_swap. apply sum_ext. intros x Hx. apply sum_ext. intros y Hy.
  cbn [app]. rewrite (get_reshape M _ _ [x; y; x; y]) by (rewrite Hd; cbn; ring).
  apply Hg; assumption.
Qed.

Lemma prop_close2_value la lb p1 q1 o1 ma mb p2 q2 o2 L R :
  linked la p1 ma -> linked lb q1 mb -> linked ma p2 la -> linked mb q2 lb ->
  ops_ok p1 q1 o1 -> 
  env_ok la lb p1 q1 o1 ma mb L -> env_ok ma mb p2 q2 o2 la lb R ->
  close2_value L R = sum la (fun x => sum lb (fun y => TM (p1 ++ p2) (q1 ++ q2) (o1 ++ o2) x y x y)).
Proof.
  intros Hp1 Hq1 Hp2 Hq2 Ho HL HR.
  destruct (env_ok_nonempty _ _ _ _ _ _ _ _ HL) as (HneL & _).
  destruct (env_ok_nonempty _ _ _ _ _ _ _ _ HR) as (HneR & _).
  destruct HL as (HwL & HdL & L1 & L2 & L3 & L4 & HgL).
  destruct HR as (HwR & HdR & R1 & R2 & R3 & R4 & HgR).
  unfold close2_value, prop_close2. rewrite HneL, HneR. unfold dim. rewrite HdR. cbn [nth].
  set (n := (la * lb * ma * mb)%nat).
  set (A := reshape L [1%nat; n]).
  set (T := transpose (reshape R [(ma * mb)%nat; (la * lb)%nat])).
  set (B := reshape T [n; 1%nat]).
  assert (HT : dims T = [(la * lb)%nat; (ma * mb)%nat]) by reflexivity.
  assert (Hel : elem0 (mmult A B) = get (mmult A B) [0%nat; 0%nat]) by reflexivity.
  rewrite Hel. rewrite (get_mmult A B 1 n 1) by (try reflexivity; lia).
  unfold n. replace (la * lb * ma * mb)%nat with ((la * lb) * (ma * mb))%nat by ring.
  rewrite sum_merge, sum_merge.
  transitivity (sum mb (fun d => sum ma (fun c => sum (la * lb) (fun xy =>
     get A [0%nat; (xy + la * lb * (c + ma * d))%nat] * get B [(xy + la * lb * (c + ma * d))%nat; 0%nat])))).
  { reflexivity. }
  transitivity (sum mb (fun d => sum ma (fun c => sum lb (fun y => sum la (fun x =>
     TM p1 q1 o1 x y c d * TM p2 q2 o2 c d x y))))).
  { apply sum_ext. intros d Hd. apply sum_ext. intros c Hc. rewrite sum_merge.
    apply sum_ext. intros y Hy. apply sum_ext. intros x Hx. f_equal.
    - unfold A. rewrite (get_reshape L _ _ [x; y; c; d]) by (rewrite HdL; cbn; ring).
      apply HgL; assumption.
    - unfold B. rewrite (get_reshape T _ _ [(x + la * y)%nat; (c + ma * d)%nat])
        by (rewrite HT; cbn; ring).
      unfold T. rewrite (get_transpose _ (ma * mb) (la * lb)) by (try reflexivity; nia).
      rewrite (get_reshape R _ _ [c; d; x; y]) by (rewrite HdR; cbn; ring).
      apply HgR; assumption. }
  transitivity (sum la (fun x => sum lb (fun y => sum ma (fun c => sum mb (fun d =>
     TM p1 q1 o1 x y c d * TM p2 q2 o2 c d x y))))).
  { rewrite sum_swap.
    transitivity (sum ma (fun c => sum la (fun x => sum lb (fun y => sum mb (fun d =>
      TM p1 q1 o1 x y c d * TM p2 q2 o2 c d x y))))).
    { apply sum_ext. intros c Hc.
      transitivity (sum mb (fun d => sum la (fun x => sum lb (fun y =>
         TM p1 q1 o1 x y c d * TM p2 q2 o2 c d x y)))).
      { apply sum_ext. intros d Hd. apply sum_swap. }
      rewrite sum_swap. apply sum_ext. intros x Hx. rewrite sum_swap. reflexivity. }
    rewrite sum_swap. apply sum_ext. intros x Hx. rewrite sum_swap. reflexivity. }
  apply sum_ext. intros x Hx. apply sum_ext. intros y Hy.
  symmetry. eapply TM_app; eauto.
Qed.

(** ** The closed value is the matrix element of the product operator *)
Lemma trace_TM p q ops D E : p <> [] -> q <> [] -> linked D p D -> linked E q E ->
  sum D (fun x => sum E (fun y => TM p q ops x y x y)) =
  sumcfg (pdims p) (fun is => sumcfg (pdims q) (fun js =>
    kconj (amp p is) * prodop ops is js * amp q js)).
Proof.
  intros Hp Hq Hlp Hlq. unfold TM, amp.
  rewrite (linked_left_bond _ _ _ Hp Hlp), (linked_left_bond _ _ _ Hq Hlq).
  transitivity (sum D (fun x => sumcfg (pdims p) (fun is => sumcfg (pdims q) (fun js =>
     sum E (fun y => kconj (chain p is x x) * prodop ops is js * chain q js y y))))).
  { apply sum_ext. intros x Hx. rewrite <- sumcfg_sum_swap. apply sumcfg_ext. intros is His.
    rewrite <- sumcfg_sum_swap. reflexivity. }
  rewrite <- sumcfg_sum_swap. apply sumcfg_ext. intros is His.
  rewrite <- sumcfg_sum_swap. apply sumcfg_ext. intros js Hjs.
  rewrite sum_conj, !sum_mul_r. apply sum_ext. intros x Hx. rewrite <- sum_mul_l. ring.
Qed.

End Facts.
