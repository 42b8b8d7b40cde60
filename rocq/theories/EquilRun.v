(** Lemmas about running the simple routine with norm weights on iterates that converge. *)
From Coq Require Import Reals Lra Lia List Bool Arith.
From Verif Require Import Base FltModel IterModel IterProofs DemandModel ConvModel ConvProofs ConvRun.
Import ListNotations.
Local Open Scope R_scope.

Lemma weight_flat J v x : weight (flat J x) (Some (flat J v)) = flat J (fun j => v j * x j).
Proof.
  unfold flat, weight. generalize (seq 0 J). intros l. induction l as [|j l IH]; [reflexivity|].
  cbn [map vzip]. rewrite IH. reflexivity.
Qed.

Lemma weighted_passes J atol rtol v x y : 0 < atol -> 0 <= rtol ->
  (forall j, (j < J)%nat -> Rabs (v j * (x j - y j)) < atol) ->
  termination_check (mk_tol (Num atol) (Num rtol) infinity_norm) (flat J x) (vsub (flat J x) (flat J y))
    (Some (flat J v)) = true.
Proof.
  intros Ha Hr H. unfold termination_check. cbn [t_atol t_rtol t_norm]. rewrite vsub_flat, !weight_flat.
  destruct (norm_flat J (fun j => v j * (x j - y j))) as [r [E [_ [_ H2]]]].
  destruct (norm_flat J (fun j => v j * x j)) as [q [Eq [Hq _]]]. rewrite E, Eq.
  specialize (H2 atol Ha H). cbn [fltb].
  unfold rltb. destruct (Rlt_dec 0 rtol) as [L|L]; cbn [fmul fadd fltb]; unfold rltb;
    match goal with |- (if Rlt_dec ?a ?b then _ else _) = _ => destruct (Rlt_dec a b) as [|N] end; try reflexivity; exfalso; nra.
Qed.

Lemma weighted_means J atol v x y : 0 < atol ->
  termination_check (mk_tol (Num atol) (Num 0) infinity_norm) (flat J x) (vsub (flat J x) (flat J y))
    (Some (flat J v)) = true ->
  forall j, (j < J)%nat -> Rabs (v j * (x j - y j)) < atol.
Proof.
  intros Ha H j Hj. unfold termination_check in H. cbn [t_atol t_rtol t_norm] in H. rewrite vsub_flat, !weight_flat in H.
  destruct (norm_flat J (fun j => v j * (x j - y j))) as [r [E [_ [H1 _]]]]. rewrite E in H. cbn [fltb] in H.
  assert (Z : rltb 0 0 = false) by (apply rltb_false; lra). rewrite Z in H. cbn [fltb] in H. apply rltb_true in H.
  specialize (H1 j Hj). lra.
Qed.

Section Run.
Variables (J : nat) (f w : (nat -> R) -> nat -> R) (start : nat -> R) (F : contraction_fn).
Hypothesis F_ext : forall log i e x, F log i e (flat J x) = (flat J (f x), Some (flat J (w x))).
Notation it n := (Nat.iter n f start).

Lemma weighted_step fuel t M n s :
  simple_loop (S fuel) F t M (flat J (it n)) n s =
  let s2 := snd (evaluate F s (flat J (it n))) in
  if (M <=? S n)%nat || termination_check t (flat J (it (S n))) (vsub (flat J (it (S n))) (flat J (it n)))
       (Some (flat J (w (it n))))
  then Some (mk_out (flat J (it (S n))) (S n <? M)%nat (callback s2))
  else simple_loop fuel F t M (flat J (it (S n))) (S n) (callback s2).
Proof.
  cbn [simple_loop]. unfold evaluate. rewrite !F_ext. cbn [fst snd].
  unfold all_finite. rewrite !flat_finite. cbn [andb negb]. reflexivity.
Qed.

Lemma weighted_loop_converges t M N :
  termination_check t (flat J (it (S N))) (vsub (flat J (it (S N))) (flat J (it N))) (Some (flat J (w (it N)))) = true ->
  (S N < M)%nat ->
  forall d n fuel s, (n + d = N)%nat -> (fuel + n >= M)%nat -> s_evaluations s = n ->
  exists o, simple_loop fuel F t M (flat J (it n)) n s = Some o /\
    o_converged o = true /\ (s_evaluations (o_st o) <= S N)%nat.
Proof.
  intros Hc HM. induction d as [|d IH]; intros n fuel s Hn Hf Hs.
  - assert (EN : n = N) by lia. rewrite EN in *. clear EN. destruct fuel as [|fuel]; [lia|].
    rewrite weighted_step. cbv zeta.
    rewrite Hc, orb_true_r. eexists. split; [reflexivity|]. cbn [o_converged o_st callback s_evaluations evaluate snd].
    split; [apply Nat.ltb_lt; lia|]. lia.
  - destruct fuel as [|fuel]; [lia|]. rewrite weighted_step. cbv zeta.
    destruct (_ || _) eqn:E.
    + eexists. split; [reflexivity|]. cbn [o_converged o_st callback s_evaluations evaluate snd].
      split; [apply Nat.ltb_lt; lia|]. lia.
    + apply IH; [lia|lia|]. cbn [callback s_evaluations evaluate snd]. lia.
Qed.

Lemma weighted_loop_means t M : forall fuel n s o,
  simple_loop fuel F t M (flat J (it n)) n s = Some o -> o_converged o = true ->
  exists k, o_x o = flat J (it (S k)) /\
    termination_check t (flat J (it (S k))) (vsub (flat J (it (S k))) (flat J (it k))) (Some (flat J (w (it k)))) = true.
Proof.
  induction fuel as [|fuel IH]; intros n s o H Hc; [discriminate|].
  rewrite weighted_step in H. cbv zeta in H.
  destruct (M <=? S n)%nat eqn:EM; cbn [orb] in H.
  - injection H as <-. cbn [o_converged] in Hc. apply Nat.leb_le in EM. apply Nat.ltb_lt in Hc. lia.
  - destruct (termination_check _ _ _ _) eqn:E.
    + injection H as <-. exists n. split; [reflexivity|assumption].
    + apply (IH _ _ _ H Hc).
Qed.

Variable l : nat -> R.
Hypothesis C : forall j, (j < J)%nat -> Un_cv (fun n => it n j) (l j).

Lemma all_close eps : 0 < eps -> exists N, forall n, (n >= N)%nat -> forall k, (k < J)%nat -> Rabs (it n k - l k) < eps.
Proof.
  intros He. assert (G : forall K, (K <= J)%nat ->
    exists N, forall n, (n >= N)%nat -> forall k, (k < K)%nat -> Rabs (it n k - l k) < eps).
  { induction K as [|K IH]; intros HK.
    - exists O. intros n _ k Hk. lia.
    - destruct IH as [N1 H1]; [lia|]. destruct (C K ltac:(lia) eps He) as [N2 H2].
      exists (Nat.max N1 N2). intros n Hn k Hk.
      destruct (Nat.eq_dec k K) as [->|]; [apply H2; lia|apply H1; lia]. }
  apply G. lia.
Qed.

Lemma weighted_converges B atol rtol : 0 < B -> (forall x j, (j < J)%nat -> Rabs (w x j) <= B) -> 0 < atol -> 0 <= rtol ->
  exists N, forall M, (N < M)%nat ->
  exists o, simple_iterator F (mk_tol (Num atol) (Num rtol) infinity_norm) M (flat J start) = Some o /\
    o_converged o = true /\ (s_evaluations (o_st o) <= N)%nat.
Proof.
  intros HB Hw Ha Hrt. destruct (all_close (atol / (2 * B))) as [N HN]; [apply Rdiv_lt_0_compat; lra|].
  exists (S N). intros M HM. unfold simple_iterator.
  apply (weighted_loop_converges (mk_tol (Num atol) (Num rtol) infinity_norm) M N) with (d := N) (n := O); try lia; [|reflexivity].
  apply weighted_passes; [assumption|assumption|]. intros j Hj.
  assert (P := HN (S N) ltac:(lia) j Hj). assert (Q := HN N ltac:(lia) j Hj).
  set (e := atol / (2 * B)) in *. assert (EB : B * (2 * e) = atol) by (unfold e; field; lra).
  assert (D : Rabs (it (S N) j - it N j) < 2 * e).
  { apply Rabs_def2 in P. apply Rabs_def2 in Q. apply Rabs_def1; lra. }
  rewrite Rabs_mult, <- EB. apply Rle_lt_trans with (B * Rabs (it (S N) j - it N j)).
  - apply Rmult_le_compat_r; [apply Rabs_pos|apply Hw; assumption].
  - apply Rmult_lt_compat_l; assumption.
Qed.

Lemma weighted_accurate eta : (forall x j, (j < J)%nat -> w x j <> 0) ->
  (forall x, (forall j, (j < J)%nat -> f x j = x j) -> forall j, (j < J)%nat -> x j = l j) -> 0 < eta ->
  exists atol0, 0 < atol0 /\ forall atol M o, 0 < atol <= atol0 ->
  simple_iterator F (mk_tol (Num atol) (Num 0) infinity_norm) M (flat J start) = Some o -> o_converged o = true ->
  forall j, (j < J)%nat -> Rabs (column (o_x o) j - l j) <= eta.
Proof.
  intros W0 U Heta. destruct (all_close eta Heta) as [N HN].
  assert (G : forall K, exists e, 0 < e /\ forall n, (n < K)%nat ->
      (forall j, (j < J)%nat -> Rabs (w (it n) j * (it (S n) j - it n j)) < e) ->
      forall j, (j < J)%nat -> Rabs (it (S n) j - l j) <= eta).
  { induction K as [|K [e [He H]]].
    - exists 1. split; [lra|]. intros n Hn. lia.
    - destruct (norm_flat J (fun j => w (it K) j * (it (S K) j - it K j))) as [r [_ [R0 [R1 R2]]]].
      destruct (Rle_lt_dec r 0) as [Z|P].
      + exists e. split; [assumption|]. intros n Hn Hc. destruct (Nat.eq_dec n K) as [->|]; [|apply H; [lia|assumption]].
        assert (E : forall j, (j < J)%nat -> f (it K) j = it K j).
        { intros j Hj. specialize (R1 j Hj). assert (B := Rabs_pos (w (it K) j * (it (S K) j - it K j))).
          destruct (Req_dec (it (S K) j - it K j) 0) as [D|D]; [change (it (S K) j) with (f (it K) j) in D; lra|].
          exfalso. assert (X : w (it K) j * (it (S K) j - it K j) <> 0).
          { apply Rmult_integral_contrapositive. split; [apply W0; assumption|assumption]. }
          apply Rabs_no_R0 in X. lra. }
        intros j Hj. change (it (S K) j) with (f (it K) j). rewrite (E j Hj), (U _ E j Hj).
        replace (l j - l j) with 0 by ring. rewrite Rabs_R0. lra.
      + exists (Rmin e r). split; [apply Rmin_pos; assumption|]. intros n Hn Hc.
        destruct (Nat.eq_dec n K) as [->|].
        * exfalso. assert (r < r); [|lra]. apply R2; [assumption|]. intros j Hj.
          eapply Rlt_le_trans; [apply Hc; assumption|apply Rmin_r].
        * apply H; [lia|]. intros j Hj. eapply Rlt_le_trans; [apply Hc; assumption|apply Rmin_l]. }
  destruct (G N) as [e [He Hsmall]]. exists e. split; [assumption|].
  intros atol M o [Ha Hae] Ho Hc j Hj. unfold simple_iterator in Ho.
  destruct (weighted_loop_means _ _ _ O _ _ Ho Hc) as [k [Ex Ck]]. rewrite Ex, column_flat by assumption.
  assert (Q := weighted_means J atol _ _ _ Ha Ck).
  destruct (le_lt_dec N k) as [L|L]; [left; apply HN; [lia|assumption]|].
  apply Hsmall; [assumption| |assumption]. intros i Hi. eapply Rlt_le_trans; [apply Q; assumption|assumption].
Qed.
End Run.
