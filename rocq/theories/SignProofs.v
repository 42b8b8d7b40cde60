(** Signs of columns of sigma: proofs. *)
From Coq Require Import Reals Lra Lia List Bool Arith FunctionalExtensionality.
From Verif Require Import Base FltModel DemandModel SupplyModel DerivModel EquilModel WelfareModel IntegModel IntegSpec IntegProofs OrderSpec OrderProofs OrderProps DemandSpec DemandProofs DemandShares DemandElim SignSpec.
Import ListNotations.
Local Open Scope R_scope.

Lemma flip_flip c v : flip c (flip c v) = v.
Proof. apply functional_extensionality. intro c'. unfold flip. destruct (Nat.eqb c' c); ring. Qed.
Lemma flip_coefficients (T : tastes) sigma pi c k j i :
  random_coefficients (mk_tastes (r_K2 T) (r_D T) (r_types T) (fun i => flip c (r_nodes T i)) (r_dem T) (r_X2 T)) sigma pi k j i
  = random_coefficients T (flip_column c sigma) pi k j i.
Proof.
  unfold random_coefficients. cbn [r_types r_K2 r_D r_nodes r_dem]. f_equal. f_equal. apply sumn_ext. intros c' _. unfold flip_column, flip.
  destruct (Nat.eqb c' c); ring.
Qed.
Lemma flip_squared K c sigma k l : sigma_squared K (flip_column c sigma) k l = sigma_squared K sigma k l.
Proof. apply sumn_ext. intros c' _. unfold flip_column, flip. destruct (Nat.eqb c' c); ring. Qed.

(** Coefficients of an agent as a function of their nodes and demographics. *)
Definition coefficients_at (T : tastes) (sigma pi : nat -> nat -> R) (v : (nat -> R) * (nat -> nat -> R)) : nat -> nat -> R :=
  fun k j => rc_transform (r_types T k) (sumn (r_K2 T) (fun c => sigma k c * fst v c) + sumn (r_D T) (fun d => pi k d * snd v d j)).

Lemma flipped_distribution M T delta sigma pi c : symmetric_agents (fI M) (fw M) (r_nodes T) (r_dem T) c ->
  same_distribution (fI M) (fw M) (agent_coefficients (tastes_at M T delta sigma pi))
    (fI M) (fw M) (agent_coefficients (with_agents (tastes_at M T delta sigma pi) (fI M) (fw M) (fun k j i => random_coefficients T (flip_column c sigma) pi k j i))).
Proof.
  intros H f. specialize (H (fun v => f (coefficients_at T sigma pi v))).
  assert (E1 : forall i, agent_coefficients (tastes_at M T delta sigma pi) i = coefficients_at T sigma pi (r_nodes T i, r_dem T i)) by reflexivity.
  assert (E2 : forall i, agent_coefficients (with_agents (tastes_at M T delta sigma pi) (fI M) (fw M) (fun k j i => random_coefficients T (flip_column c sigma) pi k j i)) i
    = coefficients_at T sigma pi (flip c (r_nodes T i), r_dem T i)).
  { intro i. apply functional_extensionality. intro k. apply functional_extensionality. intro j. unfold agent_coefficients. cbn [with_agents fcoef].
    rewrite <- flip_coefficients. reflexivity. }
  etransitivity; [|etransitivity; [exact H|]]; apply sumn_ext; intros i _; [rewrite E1|rewrite E2]; reflexivity.
Qed.

(** Symmetric rules. *)
Fixpoint negate_at (c : nat) (l : list R) {struct l} : list R :=
  match l with [] => [] | x :: l => match c with O => - x :: l | S c => x :: negate_at c l end end.
Lemma negate_nth c l : (fun c' => nth c' (negate_at c l) 0) = flip c (fun c' => nth c' l 0).
Proof.
  apply functional_extensionality. revert c. induction l as [|x l IH]; intros c c'.
  - change (nth c' [] 0 = flip c (fun c' => nth c' [] 0) c'). unfold flip. destruct c'; cbn [nth]; destruct (Nat.eqb _ c); try rewrite Ropp_0; reflexivity.
  - destruct c as [|c]; cbn [negate_at]; destruct c' as [|c']; cbn [nth]; unfold flip; cbn [Nat.eqb]; try reflexivity. exact (IH c c').
Qed.
Definition symmetric_rule (r : rule) : Prop := forall f, univariate r f = univariate r (fun a => f (- a)).
Lemma whole_symmetric r : symmetric_rule (whole r).
Proof.
  intro f. unfold univariate, whole. induction r as [|p r IH]; [reflexivity|]. cbn [flat_map]. rewrite !suml_app, IH. f_equal.
  destruct (Req_EM_T (fst p) 0) as [E|E]; cbn [suml fst snd]; [rewrite E, Ropp_0; reflexivity|rewrite Ropp_involutive; ring].
Qed.
Lemma univariate_ext r f g : (forall a, f a = g a) -> univariate r f = univariate r g.
Proof. intro E. unfold univariate. induction r as [|p r IH]; [reflexivity|]. cbn [suml]. rewrite E, IH. reflexivity. Qed.
Lemma iterated_symmetric rules : Forall symmetric_rule rules -> forall c F, iterated rules F = iterated rules (fun y => F (negate_at c y)).
Proof.
  induction 1 as [|r rules Hr _ IH]; intros c F; [reflexivity|]. cbn [iterated]. destruct c as [|c].
  - rewrite Hr. reflexivity.
  - apply univariate_ext. intro a. rewrite (IH c). reflexivity.
Qed.
Lemma sumn_first (m : nat) (g : nat -> R) : sumn (S m) g = g O + sumn m (fun i => g (S i)).
Proof. induction m as [|m IH]; [cbn; ring|]. change (sumn (S (S m)) g) with (sumn (S m) g + g (S m)). rewrite IH. cbn [sumn]. ring. Qed.
Lemma integral_indices (nodes : list (list R)) weights F : length nodes = length weights ->
  integral nodes weights F = sumn (length nodes) (fun i => weight_of weights i * F (nth i nodes [])).
Proof.
  unfold integral, weight_of. revert weights. induction nodes as [|x nodes IH]; intros [|v weights] L; try discriminate; [reflexivity|].
  cbn [combine suml fst snd length]. rewrite sumn_first. cbn [nth]. rewrite IH by (injection L; trivial). reflexivity.
Qed.
Lemma symmetric_lists nodes weights c (dem : nat -> nat -> R) : length nodes = length weights ->
  (forall F, integral nodes weights F = integral nodes weights (fun y => F (negate_at c y))) ->
  symmetric_agents (length nodes) (weight_of weights) (node_of nodes) (fun _ => dem) c.
Proof.
  intros L H f. assert (E := H (fun y => f ((fun c' => nth c' y 0), dem))). rewrite !integral_indices in E by exact L.
  etransitivity; [exact E|]. apply sumn_ext. intros i _. rewrite negate_nth. reflexivity.
Qed.
Lemma product_symmetric t nested level dimensions nodes weights c dem : (1 <= level)%nat -> (1 <= dimensions)%nat -> sound_tables t nested ->
  product_rule t dimensions level nested = Some (nodes, weights) ->
  symmetric_agents (length nodes) (weight_of weights) (node_of nodes) (fun _ => dem) c.
Proof.
  intros L D T H. assert (Q : exists x w, get_quadrature_data t level = Some (x, w)).
  { unfold product_rule in H. destruct (get_quadrature_data t level) as [[x w]|]; [eauto|discriminate]. }
  destruct Q as (x & w & Q). assert (P := fun F => product_integral t nested level x w dimensions nodes weights F L D T Q H).
  apply symmetric_lists; [exact (proj1 (P (fun _ => 0)))|]. intro F. rewrite (proj2 (P F)), (proj2 (P (fun y => F (negate_at c y)))).
  apply iterated_symmetric. apply Forall_forall. intros r Hr. apply repeat_spec in Hr. subst r. exact (whole_symmetric (combine x w)).
Qed.
Lemma sparse_symmetric t nested fuel d level nodes weights c dem : (1 <= d)%nat -> (1 <= level)%nat -> sound_tables t nested ->
  sparse_grid t fuel d level = Some (nodes, weights) ->
  symmetric_agents (length nodes) (weight_of weights) (node_of nodes) (fun _ => dem) c.
Proof.
  intros D L T H. set (sequences := fun q => map (map S) (compositions (d - 1) q)).
  assert (E : forall q, enumerates (positive_sequence d (d + q)) (sequences q)) by (intro q; apply compositions_enumerate, D).
  assert (P := fun F => sparse_integral t nested fuel d level nodes weights sequences F D L T E H).
  apply symmetric_lists; [exact (proj1 (P (fun _ => 0)))|]. intro F. rewrite (proj2 (P F)), (proj2 (P (fun y => F (negate_at c y)))).
  unfold smolyak. apply sumn_ext. intros q _. destruct (Nat.leb level (q + d)); [|reflexivity]. f_equal.
  induction (sequences q) as [|s l IH]; [reflexivity|]. cbn [suml]. rewrite IH. f_equal. apply iterated_symmetric.
  apply Forall_forall. intros r Hr. apply in_map_iff in Hr as (n & <- & _). apply whole_symmetric.
Qed.

(** mu as a function of nodes and demographics. *)
Lemma flipped_mu I w (T : tastes) sigma pi c : symmetric_agents I w (r_nodes T) (r_dem T) c ->
  same_distribution I w (mu_of T sigma pi) I w (mu_of T (flip_column c sigma) pi).
Proof.
  intros H f. specialize (H (fun v => f (fun j => sumn (r_K2 T) (fun k => r_X2 T j k * coefficients_at T sigma pi v k j)))).
  etransitivity; [exact H|]. apply sumn_ext. intros i _. f_equal. f_equal. apply functional_extensionality. intro j.
  unfold mu_of. apply sumn_ext. intros k _. f_equal. rewrite <- flip_coefficients. reflexivity.
Qed.
Lemma flipped_tastes M T delta sigma pi c :
  with_agents (tastes_at M T delta sigma pi) (fI M) (fw M) (fun k j i => random_coefficients T (flip_column c sigma) pi k j i)
  = tastes_at M T delta (flip_column c sigma) pi.
Proof. reflexivity. Qed.

(** One product and one agent with a positive node. *)
Lemma signs_matter : let m := mk_market 1 0 (fun _ => O) false (fun _ => 0) 1 in
  let T := mk_tastes 1 0 (fun _ => RCLinear) (fun _ _ => 1) (fun _ _ _ => 0) (fun _ _ => 1) in
  valid_market m /\
  market_shares m (mk_agents 1 (fun _ => 1) (mu_of T (fun _ _ => 1) (fun _ _ => 0))) true (fun _ => 0) 0
  <> market_shares m (mk_agents 1 (fun _ => 1) (mu_of T (flip_column 0 (fun _ _ => 1)) (fun _ _ => 0))) true (fun _ => 0) 0.
Proof.
  intros m T. assert (V : valid_market m) by (constructor; cbn; intros; try lia; try lra; congruence). split; [exact V|].
  rewrite !shares_are_averaged by (try exact V; cbn; lia).
  cbn [mH m Nat.eqb mJ aI aw amu eps_scale sumn]. unfold logit. cbn [all_goods indR sumn].
  unfold mu_of, random_coefficients, flip_column, flip. cbn.
  replace ((0 + (0 + 1 * (0 + 1 * 1 + 0))) / 1) with 1 by field. replace ((0 + (0 + 1 * (0 + - (1) * 1 + 0))) / 1) with (- (1)) by field.
  assert (P := exp_pos 1). assert (Q : exp 0 < exp 1) by (apply exp_increasing; lra). rewrite exp_0 in Q. rewrite exp_Ropp. set (e := exp 1) in *.
  replace (/ e / (1 + (0 + / e))) with (/ (1 + e)) by (field; split; lra). intro E.
  assert (F : e / (1 + (0 + e)) * (1 + e) = / (1 + e) * (1 + e)) by (f_equal; lra). field_simplify in F; lra.
Qed.
