(** C117: how likely importance sampling is to accept enough candidates. *)
From Coq Require Import Reals Lra Lia List Bool Arith.
From Verif Require Import Base SchedModel ImpSpec ImpProofs ImpProps ImpCount.
Import ListNotations.
Local Open Scope R_scope.

(** The documented rule of thumb: candidates are accepted with the inside share over the accept-reject constant, so that more than enough are accepted on average exactly if there are more than the constant times draws over the inside share. *)
Theorem C117_rule_of_thumb n f P U ar draws N :
  uniform_law (fun c => exists x, (x < n)%nat /\ c = P x / ar) U -> sumn n f = 1 -> 1 <= ar -> 0 < population_mean n f P ->
  let accepted (xs : list nat) (us : list R) := List.length (filter (fun i => if Rlt_dec (nth i us 0) (P (nth i xs O) / ar) then true else false) (seq 0 (List.length xs))) in
  let average := candidates_mean U n f N (fun xs us => INR (accepted xs us)) in
  average = INR N * population_mean n f P / ar /\ (INR draws < average <-> ar * INR draws / population_mean n f P < INR N).
Proof.
  intros HU Hf Ha Hm accepted average.
  assert (E : average = INR N * population_mean n f P / ar).
  { unfold average. rewrite (CM_ext U n f N _ (fun xs us => INR (accepted_count (fun x => P x / ar) xs us))).
    - rewrite (count_expected _ U n f (fun x => P x / ar) HU (fun x Hx => ex_intro _ x (conj Hx eq_refl)) Hf N).
      unfold population_mean. rewrite (sumn_ext n (fun x => f x * (P x / ar)) (fun x => f x * P x * / ar)) by (intros; unfold Rdiv; ring). rewrite sumn_scal_r. unfold Rdiv. ring.
    - intros xs us H1 H2. f_equal. apply (accepted_length (fun x => P x / ar)). congruence. }
  split; [exact E|]. rewrite E. set (m := population_mean n f P) in *. clearbody m.
  assert (X : ar * INR draws / m < INR N <-> ar * INR draws < INR N * m).
  { split; intro H; [apply Rmult_lt_reg_r with (/ m); [apply Rinv_0_lt_compat, Hm|]; replace (INR N * m * / m) with (INR N) by (field; lra); exact H|].
    apply Rmult_lt_reg_r with m; [exact Hm|]. replace (ar * INR draws / m * m) with (ar * INR draws) by (field; lra). exact H. }
  rewrite X. split; intro H.
  - apply Rmult_lt_reg_r with (/ ar); [apply Rinv_0_lt_compat; lra|]. replace (ar * INR draws * / ar) with (INR draws) by (field; lra). exact H.
  - apply Rmult_lt_reg_r with ar; [lra|]. replace (INR N * m / ar * ar) with (INR N * m) by (field; lra). lra.
Qed.
Print Assumptions C117_rule_of_thumb.

(** How likely it is that no exception is raised: that a binomial number is at least the number of draws. *)
Theorem C117_success n f P U ar share choose K draws N :
  uniform_law (fun c => exists x, (x < n)%nat /\ c = P x / ar) U -> fair_choice choose K draws N -> (0 < draws)%nat -> sumn n f = 1 -> 1 <= ar ->
  let p := population_mean n f P / ar in
  candidates_mean U n f N (succeeds choose K draws ar share P) = sumn (S N) (fun k => if (draws <=? k)%nat then C N k * p ^ k * (1 - p) ^ (N - k) else 0).
Proof.
  intros HU HK Hd Hf Ha p. rewrite (CM_ext U n f N _ (fun xs us => (fun k => if (draws <=? k)%nat then 1 else 0) (accepted_count (fun x => P x / ar) xs us))).
  - rewrite (count_mean _ U n f (fun x => P x / ar) HU (fun x Hx => ex_intro _ x (conj Hx eq_refl)) Hf N (fun k => if (draws <=? k)%nat then 1 else 0)).
    assert (E : sumn n (fun x => f x * (P x / ar)) = p) by (unfold p, population_mean; rewrite (sumn_ext n _ (fun x => f x * P x * / ar)) by (intros; unfold Rdiv; ring); rewrite sumn_scal_r; reflexivity).
    rewrite E. unfold binomial_mean. apply sumn_ext. intros k _. destruct (draws <=? k)%nat; ring.
  - intros xs us H1 H2. apply (succeeds_eq choose K draws N ar share P HK Hd xs us); congruence.
Qed.
Print Assumptions C117_success.

(** The population, cutoffs and choice of [C117_applies], of which 7/16 buy: with two candidates, one draw succeeds with probability 175/256. *)
Example C117_success_applies :
  let f x := if Nat.eqb x 0 then 3 / 4 else / 4 in let P x := if Nat.eqb x 0 then / 2 else / 4 in
  uniform_law (fun c => exists x, (x < 2)%nat /\ c = P x / 1) grid /\ fair_choice pick (fact 2) 1 2 /\ sumn 2 f = 1 /\ population_mean 2 f P = 7 / 16 /\
  candidates_mean grid 2 f 2 (succeeds pick (fact 2) 1 1 (7 / 16) P) = 175 / 256.
Proof.
  intros f P. assert (M : population_mean 2 f P = 7 / 16) by (unfold population_mean, f, P; cbn; lra). assert (F : sumn 2 f = 1) by (unfold f; cbn; lra).
  split; [exact grid_law|]. split; [apply pick_fair|]. split; [exact F|]. split; [exact M|].
  rewrite (C117_success 2 f P grid 1 (7 / 16) pick (fact 2) 1 2 grid_law (pick_fair 2) ltac:(lia) F ltac:(lra)). rewrite M. cbn [sumn Nat.leb Nat.sub pow]. unfold C. cbn. field.
Qed.
