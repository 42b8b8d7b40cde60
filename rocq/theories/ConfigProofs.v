(** Proofs about configurations. *)
From Coq Require Import Reals Lra Lia List Bool Arith ZArith String.
From Verif Require Import Base FltModel IterModel IterSpec IterProofs IntegModel ConfigModel ConfigSpec.
Import ListNotations.
Local Open Scope string_scope.
Local Open Scope list_scope.

Lemma get_app d d' k : get (d ++ d') k = match get d k with Some v => Some v | None => get d' k end.
Proof. induction d as [|[k' v] d IH]; [reflexivity|]. cbn. destruct (String.eqb k' k); [reflexivity|exact IH]. Qed.

Lemma member_in s l : member s l = true <-> In s l.
Proof.
  unfold member. rewrite existsb_exists. split.
  - intros [x [H E]]. apply String.eqb_eq in E. subst. exact H.
  - intros H. exists s. split; [exact H|apply String.eqb_refl].
Qed.

Lemma get_delete d k k' : get (delete d k) k' = if String.eqb k k' then None else get d k'.
Proof.
  induction d as [|[k0 v] d IH]; cbn; [destruct (String.eqb k k'); reflexivity|].
  destruct (String.eqb_spec k0 k) as [->|N].
  - rewrite IH. destruct (String.eqb_spec k k'); reflexivity.
  - cbn. rewrite IH. destruct (String.eqb_spec k0 k') as [->|N']; [|reflexivity].
    destruct (String.eqb_spec k k') as [->|]; [contradiction|reflexivity].
Qed.

(** ** Comparisons *)

Lemma negative_iff x : fltb x (Num 0) = true <-> negative x.
Proof.
  unfold negative. destruct x; cbn; split; intros H; try discriminate; try (left; reflexivity); auto.
  - unfold rltb in H. destruct (Rlt_dec r 0); [|discriminate]. right. exists r. auto.
  - destruct H as [H|[x [E L]]]; [discriminate|]. injection E as ->. unfold rltb. destruct (Rlt_dec x 0); [reflexivity|contradiction].
  - destruct H as [H|[x [E L]]]; discriminate.
  - destruct H as [H|[x [E L]]]; discriminate.
Qed.

Lemma not_positive_iff x : fleb x (Num 0) = true <-> not_positive x.
Proof.
  unfold not_positive, fleb. destruct x; cbn; split; intros H; try discriminate; try (left; reflexivity); auto.
  - right. exists r. split; [reflexivity|]. unfold rltb, reqb in H. destruct (Rlt_dec r 0); destruct (Req_EM_T r 0); cbn in H; try discriminate; lra.
  - destruct H as [H|[x [E L]]]; [discriminate|]. injection E as ->. unfold rltb, reqb.
    destruct (Rlt_dec x 0); [reflexivity|]. destruct (Req_EM_T x 0); [reflexivity|lra].
  - destruct H as [H|[x [E L]]]; discriminate.
  - destruct H as [H|[x [E L]]]; discriminate.
Qed.

Lemma below_iff x y : fltb x y = true <-> below x y.
Proof.
  unfold below. split.
  - destruct x, y; cbn; intros H; try discriminate; unfold rltb in *.
    + left. exists r, r0. destruct (Rlt_dec r r0); [auto|discriminate].
    + right. right. split; [reflexivity|]. exists r. reflexivity.
    + right. left. split; [reflexivity|]. right. exists r. reflexivity.
    + right. left. auto.
  - intros [[a [b [-> [-> L]]]]|[[-> [->|[b ->]]]|[-> [a ->]]]]; cbn; try reflexivity.
    unfold rltb. destruct (Rlt_dec a b); [reflexivity|contradiction].
Qed.

Lemma feqb_zero x : feqb x (Num 0) = true <-> x = Num 0.
Proof.
  destruct x; cbn; split; intros H; try discriminate.
  - unfold reqb in H. destruct (Req_EM_T r 0); [subst; reflexivity|discriminate].
  - injection H as ->. unfold reqb. destruct (Req_EM_T 0 0); [reflexivity|contradiction].
Qed.

Lemma feqb_both x y : feqb x y && feqb y (Num 0) = true <-> x = Num 0 /\ y = Num 0.
Proof.
  rewrite andb_true_iff, feqb_zero. split.
  - intros [H ->]. apply feqb_zero in H. auto.
  - intros [-> ->]. split; [apply feqb_zero; reflexivity|reflexivity].
Qed.

Lemma numeric_iff v x : number v = Some x <-> numeric v x.
Proof.
  unfold numeric, integer. split.
  - destruct v; cbn; intros H; try discriminate; injection H as <-.
    + right. exists (if b then 1 else 0)%Z. destruct b; split; auto.
    + right. exists z. auto.
    + left. reflexivity.
  - intros [->|[z [[->|[[-> ->]|[-> ->]]] ->]]]; reflexivity.
Qed.

Lemma integer_iff v z : is_int v = true /\ as_integer v = z <-> integer v z.
Proof.
  unfold integer. split.
  - destruct v; cbn; intros [H E]; try discriminate; [destruct b; auto|subst; auto].
  - intros [->|[[-> ->]|[-> ->]]]; auto.
Qed.

Lemma integer_number v : is_int v = true -> number_or v = Num (IZR (as_integer v)).
Proof. destruct v; cbn; try discriminate; intros _; [destruct b|]; reflexivity. Qed.

Lemma integer_at_least v n : is_int v = true -> (fltb (number_or v) (Num (IZR n)) = true <-> (as_integer v < n)%Z).
Proof.
  intros H. rewrite (integer_number v H). cbn. unfold rltb. destruct (Rlt_dec _ _) as [L|L]; split; intros X; try reflexivity; try discriminate.
  - apply lt_IZR in L. exact L.
  - exfalso. apply L. apply IZR_lt. exact X.
Qed.

(** ** Iteration *)

Definition merged (m : string) (d : dict) := update (iteration_defaults m) d.
Lemma get_merged m d k default : get (iteration_defaults m) k = Some default -> get_or (merged m d) k PyNone = picked d k default.
Proof. intros E. unfold get_or, merged, update, picked. rewrite get_app. destruct (get d k); [reflexivity|rewrite E; reflexivity]. Qed.

Lemma tolerances_iff m d : m = "simple" \/ m = "squarem" ->
  (valid_tolerances (merged m d) = true <-> exists atol rtol max norm, simple_choice d atol rtol max norm).
Proof.
  intros Hm. unfold valid_tolerances.
  rewrite (get_merged m d "atol" (PyFloat (Num (1 / 10 ^ 14)))) by (destruct Hm; subst; reflexivity).
  rewrite (get_merged m d "rtol" (PyInt 0)) by (destruct Hm; subst; reflexivity).
  rewrite (get_merged m d "max_evaluations" (PyInt 5000)) by (destruct Hm; subst; reflexivity).
  rewrite (get_merged m d "norm" infinity_norm_value) by (destruct Hm; subst; reflexivity).
  unfold simple_choice. set (a := picked d "atol" _). set (r := picked d "rtol" _). set (mx := picked d "max_evaluations" _). set (nm := picked d "norm" _).
  clearbody a r mx nm. rewrite !andb_true_iff, !negb_true_iff, !orb_false_iff, !negb_false_iff. split.
  - intros [[[[[[Ia Na] [Ir Nr]] Nz] Im] Lm] Cn].
    unfold is_number in Ia, Ir. destruct (number a) as [at_|] eqn:Ea; [|discriminate]. destruct (number r) as [rt|] eqn:Er; [|discriminate].
    unfold number_or in Na, Nr, Nz. rewrite Ea in Na, Nz. rewrite Er in Nr, Nz.
    destruct nm as [| | | | |n|]; try discriminate Cn. exists at_, rt, (as_integer mx), n.
    split; [apply numeric_iff; exact Ea|]. split; [rewrite <- negative_iff, Na; discriminate|].
    split; [apply numeric_iff; exact Er|]. split; [rewrite <- negative_iff, Nr; discriminate|].
    split; [rewrite <- feqb_both, Nz; discriminate|].
    split; [apply integer_iff; auto|]. split; [|reflexivity].
    destruct (Z_lt_le_dec (as_integer mx) 1) as [L|L]; [|exact L]. apply (integer_at_least mx 1 Im) in L. rewrite L in Lm. discriminate.
  - intros [at_ [rt [max [n [Ea [Na [Er [Nr [Nz [Im [Lm ->]]]]]]]]]]].
    apply numeric_iff in Ea. apply numeric_iff in Er. apply integer_iff in Im. destruct Im as [Im Em].
    unfold is_number, number_or. rewrite Ea, Er.
    rewrite <- negative_iff in Na. rewrite <- negative_iff in Nr. rewrite <- feqb_both in Nz.
    repeat split; try assumption; try (apply not_true_is_false; assumption); try reflexivity.
    assert (Q := integer_at_least mx 1 Im). unfold number_or in Q. apply not_true_is_false. intros H. apply Q in H. lia.
Qed.

Lemma scheme_iff v : one_of_three v = true <-> exists s, numeric v (Num (INR s)) /\ (s = 1 \/ s = 2 \/ s = 3).
Proof.
  unfold one_of_three. split.
  - intros H. unfold number_or in H. destruct (number v) as [x|] eqn:E; [|discriminate].
    destruct x as [r| | |]; cbn in H; try discriminate. unfold reqb in H.
    destruct (Req_EM_T r 1) as [e|]; [exists 1%nat|]. { split; [apply numeric_iff; rewrite E; subst; f_equal; f_equal; cbn; ring|auto]. }
    destruct (Req_EM_T r 2) as [e|]; [exists 2%nat|]. { split; [apply numeric_iff; rewrite E; subst; f_equal; f_equal; cbn; ring|auto]. }
    destruct (Req_EM_T r 3) as [e|]; [exists 3%nat|discriminate]. split; [apply numeric_iff; rewrite E; subst; f_equal; f_equal; cbn; ring|auto].
  - intros [s [E H]]. apply numeric_iff in E. unfold number_or. rewrite E. cbn. unfold reqb.
    destruct H as [->|[->| ->]]; cbn.
    + destruct (Req_EM_T 1 1); [reflexivity|contradiction].
    + replace (1 + 1)%R with 2%R by ring. destruct (Req_EM_T 2 2); [|contradiction]. rewrite orb_true_r. reflexivity.
    + replace (1 + 1 + 1)%R with 3%R by ring. destruct (Req_EM_T 3 3); [|contradiction]. rewrite !orb_true_r. reflexivity.
Qed.

Lemma steps_iff d : valid_steps (merged "squarem" d) = true <-> exists scheme smin smax factor, squarem_choice d scheme smin smax factor.
Proof.
  unfold valid_steps.
  rewrite (get_merged "squarem" d "step_min" (PyFloat (Num 1)) eq_refl), (get_merged "squarem" d "step_max" (PyFloat (Num 1)) eq_refl),
    (get_merged "squarem" d "step_factor" (PyFloat (Num 4)) eq_refl), (get_merged "squarem" d "scheme" (PyInt 3) eq_refl).
  unfold squarem_choice. set (sc := picked d "scheme" _). set (a := picked d "step_min" _). set (b := picked d "step_max" _). set (c := picked d "step_factor" _).
  clearbody sc a b c. rewrite !andb_true_iff, !negb_true_iff, !orb_false_iff, !negb_false_iff, scheme_iff. split.
  - intros [[[[[s [Es Hs]] Fa] [Fb Pb]] Lab] [Fc Pc]].
    destruct a as [| | |x| | |]; try discriminate. destruct b as [| | |y| | |]; try discriminate. destruct c as [| | |z| | |]; try discriminate.
    exists s, x, y, z. cbn in *. repeat split; try assumption.
    + rewrite <- not_positive_iff, Pb. discriminate.
    + rewrite <- below_iff, Lab. discriminate.
    + rewrite <- not_positive_iff, Pc. discriminate.
  - intros [s [x [y [z [Es [Hs [-> [-> [Pb [Lab [-> Pc]]]]]]]]]]]. cbn.
    rewrite <- not_positive_iff in Pb. rewrite <- not_positive_iff in Pc. rewrite <- below_iff in Lab.
    repeat split; try (apply not_true_is_false; assumption). exists s. auto.
Qed.

Lemma simple_accepted d : (exists c, configure_iteration (PyStr "simple") (Options d) false = Some c) <->
  exists atol rtol max norm, simple_choice d atol rtol max norm.
Proof.
  rewrite <- (tolerances_iff "simple" d (or_introl eq_refl)). unfold configure_iteration. cbn -[valid_tolerances merged update iteration_defaults].
  fold (merged "simple" d). destruct (valid_tolerances (merged "simple" d)); cbn; split; intros H; try reflexivity; try (eexists; reflexivity); first [discriminate H|destruct H as [? H]; discriminate H].
Qed.

Lemma squarem_accepted d : (exists c, configure_iteration (PyStr "squarem") (Options d) false = Some c) <->
  (exists atol rtol max norm, simple_choice d atol rtol max norm) /\ (exists scheme smin smax factor, squarem_choice d scheme smin smax factor).
Proof.
  rewrite <- (tolerances_iff "squarem" d (or_intror eq_refl)), <- steps_iff. unfold configure_iteration.
  cbn -[valid_tolerances valid_steps merged update iteration_defaults].
  fold (merged "squarem" d). destruct (valid_tolerances (merged "squarem" d)); cbn -[valid_steps];
  [destruct (valid_steps (merged "squarem" d)); cbn|]; split; intros H; try (split; reflexivity); try (eexists; reflexivity);
  try (destruct H as [? H]; discriminate); destruct H as [X Y]; discriminate.
Qed.

Lemma binds_iff names o : binds names o = true <-> only names o.
Proof.
  unfold binds, only. rewrite forallb_forall. split.
  - intros H k v I. apply member_in. exact (H (k, v) I).
  - intros H [k v] I. apply member_in. exact (H k v I).
Qed.

Lemma only_app names d d' : only names (d ++ d') <-> only names d /\ only names d'.
Proof.
  unfold only. split.
  - intros H. split; intros k v I; apply (H k v); apply in_or_app; auto.
  - intros [A B] k v I. apply in_app_or in I. destruct I; eauto.
Qed.

Lemma configured_simple d c : configure_iteration (PyStr "simple") (Options d) false = Some c -> c = mk_iteration (PyStr "simple") (merged "simple" d) false.
Proof.
  unfold configure_iteration. cbn -[valid_tolerances merged update iteration_defaults]. fold (merged "simple" d).
  destruct (valid_tolerances _); cbn -[merged update]; intros H; [injection H as <-; reflexivity|discriminate].
Qed.

Lemma configured_squarem d c : configure_iteration (PyStr "squarem") (Options d) false = Some c -> c = mk_iteration (PyStr "squarem") (merged "squarem" d) false.
Proof.
  unfold configure_iteration. cbn -[valid_tolerances valid_steps merged update iteration_defaults]. fold (merged "squarem" d).
  destruct (valid_tolerances _); cbn -[valid_steps merged update]; [|discriminate].
  destruct (valid_steps _); cbn -[merged update]; intros H; [injection H as <-; reflexivity|discriminate].
Qed.

Lemma tolerance_merged m norms d atol rtol max norm : m = "simple" \/ m = "squarem" -> simple_choice d atol rtol max norm ->
  tolerance_of norms (merged m d) = mk_tol atol rtol (norms norm) /\ max_evaluations_of (merged m d) = Z.to_nat max.
Proof.
  intros Hm [Ea [_ [Er [_ [_ [Im [_ En]]]]]]]. apply numeric_iff in Ea. apply numeric_iff in Er. apply integer_iff in Im.
  unfold tolerance_of, max_evaluations_of.
  rewrite (get_merged m d "atol" (PyFloat (Num (1 / 10 ^ 14)))) by (destruct Hm; subst; reflexivity).
  rewrite (get_merged m d "rtol" (PyInt 0)) by (destruct Hm; subst; reflexivity).
  rewrite (get_merged m d "max_evaluations" (PyInt 5000)) by (destruct Hm; subst; reflexivity).
  rewrite (get_merged m d "norm" infinity_norm_value) by (destruct Hm; subst; reflexivity).
  unfold number_or. rewrite Ea, Er, En. destruct Im as [_ <-]. split; reflexivity.
Qed.

Lemma simple_runs norms d c f x atol rtol max norm :
  configure_iteration (PyStr "simple") (Options d) false = Some c -> only simple_parameters d ->
  simple_choice d atol rtol max norm ->
  iterate norms c f x = simple_iterator f (mk_tol atol rtol (norms norm)) (Z.to_nat max) x.
Proof.
  intros H O C. rewrite (configured_simple d c H). destruct (tolerance_merged "simple" norms d atol rtol max norm (or_introl eq_refl) C) as [Et Em].
  unfold iterate. cbn [it_method it_options].
  replace (binds simple_parameters (merged "simple" d)) with true.
  - rewrite Et, Em. reflexivity.
  - symmetry. apply binds_iff. unfold merged, update. apply only_app. split; [exact O|].
    apply binds_iff. reflexivity.
Qed.

Lemma squarem_runs norms d c f x atol rtol max norm scheme smin smax factor :
  configure_iteration (PyStr "squarem") (Options d) false = Some c -> only squarem_parameters d ->
  simple_choice d atol rtol max norm -> squarem_choice d scheme smin smax factor ->
  iterate norms c f x = option_map q_out (squarem_iterator f (mk_tol atol rtol (norms norm)) (Z.to_nat max) scheme factor (mk_bounds smin smax) x).
Proof.
  intros H O C [Es [Hs [E1 [E2 [_ [_ [E3 _]]]]]]]. rewrite (configured_squarem d c H).
  destruct (tolerance_merged "squarem" norms d atol rtol max norm (or_intror eq_refl) C) as [Et Em].
  unfold iterate. cbn [it_method it_options].
  replace (binds squarem_parameters (merged "squarem" d)) with true.
  - rewrite Et, Em. unfold scheme_of, bounds_of, factor_of.
    rewrite (get_merged "squarem" d "step_min" (PyFloat (Num 1)) eq_refl), (get_merged "squarem" d "step_max" (PyFloat (Num 1)) eq_refl),
      (get_merged "squarem" d "step_factor" (PyFloat (Num 4)) eq_refl), (get_merged "squarem" d "scheme" (PyInt 3) eq_refl).
    rewrite E1, E2, E3. apply numeric_iff in Es. unfold number_or at 1 2. rewrite Es. cbn [number_or number].
    replace (if feqb (Num (INR scheme)) (Num 1) then 1 else if feqb (Num (INR scheme)) (Num 2) then 2 else 3) with scheme; [reflexivity|].
    cbn. unfold reqb. destruct Hs as [->|[->| ->]]; cbn.
    + destruct (Req_EM_T 1 1); [reflexivity|contradiction].
    + destruct (Req_EM_T (1 + 1) 1); [lra|]. destruct (Req_EM_T (1 + 1) 2); [reflexivity|lra].
    + destruct (Req_EM_T (1 + 1 + 1) 1); [lra|]. destruct (Req_EM_T (1 + 1 + 1) 2); [lra|reflexivity].
  - symmetry. apply binds_iff. unfold merged, update. apply only_app. split; [exact O|].
    apply binds_iff. reflexivity.
Qed.

(** Names that are not parameters. *)
Lemma unknown_fails norms m d c f x k v : m = "simple" /\ ~ In k simple_parameters \/ m = "squarem" /\ ~ In k squarem_parameters ->
  configure_iteration (PyStr m) (Options d) false = Some c -> In (k, v) d -> iterate norms c f x = None.
Proof.
  intros [[-> N]|[-> N]] H I.
  - rewrite (configured_simple d c H). unfold iterate. cbn [it_method it_options].
    destruct (binds _ _) eqn:B; [|reflexivity]. apply binds_iff in B. exfalso. apply N. apply (B k v). apply in_or_app. left. exact I.
  - rewrite (configured_squarem d c H). unfold iterate. cbn [it_method it_options].
    destruct (binds _ _) eqn:B; [|reflexivity]. apply binds_iff in B. exfalso. apply N. apply (B k v). apply in_or_app. left. exact I.
Qed.

(** A tolerance that is not a number is never reached. *)
Lemma nan_check rtol norm x r w : termination_check (mk_tol NaN rtol norm) x r w = false.
Proof.
  unfold termination_check. cbn [t_atol t_rtol t_norm]. destruct (fltb (Num 0) rtol); cbn [fadd]; destruct (norm (weight r w)); reflexivity.
Qed.
Lemma nan_loop rtol norm f max : forall fuel x e s o, simple_loop fuel f (mk_tol NaN rtol norm) max x e s = Some o -> o_converged o = false.
Proof.
  induction fuel as [|n IH]; intros x e s o H; [discriminate|]. cbn [simple_loop] in H.
  destruct (evaluate f s x) as [[x1 w] s1]. destruct (negb (all_finite x1 w)); [injection H as <-; reflexivity|].
  rewrite nan_check, orb_false_r in H. destruct (Nat.leb_spec max (S e)) as [L|L]; [|exact (IH _ _ _ _ H)].
  injection H as <-. cbn [o_converged]. apply Nat.ltb_ge. exact L.
Qed.
Lemma nan_never norms d c f x o : configure_iteration (PyStr "simple") (Options d) false = Some c ->
  get d "atol" = Some (PyFloat NaN) -> iterate norms c f x = Some o -> o_converged o = false.
Proof.
  intros H G E. rewrite (configured_simple d c H) in E. unfold iterate in E. cbn [it_method it_options] in E.
  destruct (binds _ _); [|discriminate]. unfold simple_iterator, tolerance_of in E.
  rewrite (get_merged "simple" d "atol" (PyFloat (Num (1 / 10 ^ 14))) eq_refl) in E. unfold picked in E. rewrite G in E.
  exact (nan_loop _ _ _ _ _ _ _ _ _ E).
Qed.

(** The other methods. *)
Lemma return_accepted d j : (exists c, configure_iteration (PyStr "return") (Options d) j = Some c) <-> d = [].
Proof.
  unfold configure_iteration. cbn. destruct d as [|p d]; cbn.
  - split; [reflexivity|]. intros _. eexists. reflexivity.
  - split; [intros [c H]; discriminate|discriminate].
Qed.

Lemma other_methods m d : In m ["hybr"; "lm"] \/ In m norm_methods ->
  forall j, (exists c, configure_iteration (PyStr m) (Options d) j = Some c) <-> (j = true -> In m ["hybr"; "lm"]).
Proof.
  intros [H|H] j; cbn in H.
  - destruct H as [<-|[<-|[]]]; unfold configure_iteration; cbn; (split; [auto|intros _; eexists; reflexivity]).
  - destruct j; split; intros A.
    + exfalso. destruct A as [c E]. destruct H as [<-|[<-|[<-|[<-|[<-|[<-|[]]]]]]]; discriminate E.
    + exfalso. specialize (A eq_refl). cbn in A. destruct H as [<-|[<-|[<-|[<-|[<-|[<-|[]]]]]]]; intuition discriminate.
    + discriminate.
    + destruct H as [<-|[<-|[<-|[<-|[<-|[<-|[]]]]]]]; eexists; reflexivity.
Qed.

Lemma jacobians m o c : configure_iteration (PyStr m) o true = Some c -> m = "hybr" \/ m = "lm" \/ m = "return".
Proof.
  unfold configure_iteration. destruct (member m (simple_methods ++ complex_methods)) eqn:M; cbn [negb]; [|discriminate].
  destruct (acceptable_options o); cbn [negb]; [|discriminate]. destruct (member m simple_methods) eqn:S1; cbn [andb]; [discriminate|]. intros _.
  apply member_in in M. apply in_app_or in M. destruct M as [M|M]; [apply member_in in M; congruence|].
  cbn in M. intuition.
Qed.

(** ** Integration *)

Lemma integration_same s size d d' c : agree_on (supported s) d d' ->
  configure_integration s size (Options d) = Some c ->
  exists c', configure_integration s size (Options d') = Some c' /\
    (forall t, rule_of t c' = rule_of t c) /\ size_of c' = size_of c /\ seed_of c' = seed_of c.
Proof.
  intros A. unfold configure_integration. cbn [given acceptable_options negb].
  destruct (member s specifications) eqn:M; cbn [negb]; [|discriminate].
  destruct (negb (is_int size) || fltb (number_or size) (Num 1)); [discriminate|].
  set (D := integration_defaults s).
  assert (G : forall k, In k (supported s) -> get (update D d') k = get (update D d) k).
  { intros k I. unfold update. rewrite !get_app, (A k I). reflexivity. }
  assert (Seed : member s random_specifications = true -> get (update D d') "seed" = get (update D d) "seed").
  { intros R. apply G. apply member_in in R. cbn in R. unfold supported.
    destruct R as [<-|[<-|[<-|[<-|[]]]]]; cbn; auto. }
  assert (Hal : s = "halton" -> get (update D d') "discard" = get (update D d) "discard" /\ get (update D d') "scramble" = get (update D d) "scramble").
  { intros ->. split; apply G; cbn; auto. }
  intros H.
  destruct (member s random_specifications && negb (is_int (get_or (update D d) "seed" (PyInt 0)))) eqn:B1; [discriminate|].
  destruct (String.eqb s "halton" && _) eqn:B2 in H; [discriminate|]. injection H as <-.
  assert (B1' : member s random_specifications && negb (is_int (get_or (update D d') "seed" (PyInt 0))) = false).
  { destruct (member s random_specifications); [|reflexivity]. unfold get_or in *. rewrite (Seed eq_refl). exact B1. }
  rewrite B1'. destruct (String.eqb_spec s "halton") as [->|N].
  - destruct (Hal eq_refl) as [H1 H2]. cbn [andb] in *. unfold get_or in *. rewrite H1. rewrite B2. eexists. split; [reflexivity|].
    unfold rule_of, size_of, seed_of. cbn [in_specification in_options in_size String.eqb Ascii.eqb Bool.eqb]. unfold get_or.
    rewrite H1, H2. repeat split. destruct (member "halton" random_specifications) eqn:R; [|reflexivity]. exact (Seed eq_refl).
  - cbn [andb]. eexists. split; [reflexivity|]. unfold rule_of, size_of, seed_of. cbn [in_specification in_options in_size].
    destruct (String.eqb_spec s "halton"); [contradiction|]. repeat split.
    destruct (member s random_specifications) eqn:R; [|reflexivity]. exact (Seed eq_refl).
Qed.

Lemma integration_size s size o c : configure_integration s size o = Some c ->
  exists z, integer size z /\ (1 <= z)%Z /\ size_of c = Z.to_nat z.
Proof.
  unfold configure_integration. destruct (member s specifications); cbn [negb]; [|discriminate].
  destruct (is_int size) eqn:I; cbn [negb orb]; [|discriminate].
  destruct (fltb (number_or size) (Num 1)) eqn:L; [discriminate|]. intros H.
  exists (as_integer size). split; [apply integer_iff; auto|]. split.
  - destruct (Z_lt_le_dec (as_integer size) 1) as [X|X]; [|exact X]. apply (integer_at_least size 1 I) in X. congruence.
  - destruct (negb (acceptable_options o)); [discriminate|]. destruct (_ && _) in H; [discriminate|]. destruct (_ && _) in H; [discriminate|].
    injection H as <-. reflexivity.
Qed.

(** Draws of an accepted configuration have weights that sum to one. *)
Lemma equal_weights_sum n : (0 < n)%nat -> fold_right Rplus 0%R (equal_weights n) = 1%R.
Proof.
  intros H. unfold equal_weights. assert (E : forall m x, fold_right Rplus 0%R (repeat x m) = (INR m * x)%R).
  { induction m as [|m IH]; intros x; [cbn; ring|]. rewrite S_INR. cbn [repeat fold_right]. rewrite IH. ring. }
  rewrite E. field. apply not_0_INR. lia.
Qed.

(** ** Optimization *)

Lemma optimization_methods m o g : (exists c, configure_optimization (PyStr m) (Options o) g = Some c) <->
  (In m (bounds_and_gradients ++ gradients_only ++ neither) \/ m = "knitro" \/ m = "return" /\ o = []) /\
  (g = true -> ~ In m neither) /\ (m = "newton-cg" -> g = true).
Proof.
  unfold configure_optimization. cbn [given acceptable_options negb].
  destruct (member m (gradient_free_methods ++ unbounded_methods ++ bounded_methods)) eqn:M; cbn [negb].
  - apply member_in in M. cbn in M.
    destruct M as [<-|[<-|[<-|[<-|[<-|[<-|[<-|[<-|[<-|[<-|[<-|[]]]]]]]]]]]]; destruct g; cbn; try (destruct o as [|p o]; cbn);
      (split; [intros [c H]; try discriminate; repeat split; intros; try discriminate; try reflexivity; try tauto;
         intuition discriminate
        | intros [A [B C]]; try (eexists; reflexivity);
          try (exfalso; apply B; [reflexivity|]; cbn; tauto); try (specialize (C eq_refl); discriminate);
          exfalso; destruct A as [A|[A|[A A']]]; try discriminate; intuition discriminate]).
  - split; [intros [c H]; discriminate|]. intros [A _]. exfalso.
    assert (Q : In m (gradient_free_methods ++ unbounded_methods ++ bounded_methods)).
    { destruct A as [A|[->|[-> _]]]; [|cbn; tauto|cbn; tauto]. cbn in A. cbn. tauto. }
    apply member_in in Q. congruence.
Qed.

Lemma minimize_call m o g c bounds : configure_optimization (PyStr m) (Options o) g = Some c -> m <> "knitro" -> m <> "return" ->
  exists call, scipy_minimize c bounds = Some call /\ sc_method call = m /\ sc_jac call = g /\
    (forall k, get (sc_options call) k = if String.eqb "keep_feasible" k then None else get o k) /\
    sc_bounds call = (match bounds with
                      | Some l => if member m bounds_and_gradients then
                          match get o "keep_feasible" with Some v => Feasible l v | None => Pairs l end else NoBounds
                      | None => NoBounds end).
Proof.
  intros H N1 N2. unfold configure_optimization in H. cbn [given acceptable_options negb] in H.
  destruct (member m (gradient_free_methods ++ unbounded_methods ++ bounded_methods)) eqn:M; cbn [negb] in H; [|discriminate].
  destruct (member m gradient_free_methods && g); [discriminate|].
  destruct (String.eqb m "newton-cg" && negb g); [discriminate|].
  destruct (String.eqb_spec m "return") as [e|_]; [contradiction|]. cbn [andb] in H.
  destruct (String.eqb_spec m "knitro") as [e|Nk]; [contradiction|]. injection H as <-.
  assert (D : optimization_defaults m g = []). { unfold optimization_defaults. destruct (String.eqb_spec m "knitro"); [contradiction|reflexivity]. }
  rewrite D. unfold update. rewrite app_nil_r. unfold scipy_minimize. cbn [op_method op_options op_gradient op_bounds].
  assert (K : member m ["knitro"; "return"] = false).
  { apply not_true_is_false. rewrite member_in. cbn. intros [E|[E|[]]]; congruence. }
  rewrite K. eexists. split; [reflexivity|]. cbn [sc_method sc_jac sc_options sc_bounds]. split; [reflexivity|]. split; [reflexivity|].
  split; [intros k; rewrite get_delete; reflexivity|].
  assert (B : member m bounded_methods = member m bounds_and_gradients).
  { apply member_in in M. cbn in M. destruct M as [<-|[<-|[<-|[<-|[<-|[<-|[<-|[<-|[<-|[<-|[<-|[]]]]]]]]]]]]; try reflexivity; contradiction. }
  destruct (member m bounds_and_gradients); unfold member in B; cbn in B; rewrite B; destruct bounds as [l|]; try reflexivity.
Qed.

(** ** What is accepted and used *)

Lemma integration_accepted s size d : (exists c, configure_integration s size (Options d) = Some c) <-> integration_choice s size d.
Proof.
  unfold configure_integration, integration_choice. cbn [given acceptable_options negb].
  assert (M : In s documented_rules <-> member s specifications = true). { rewrite member_in. cbn. tauto. }
  rewrite M. destruct (member s specifications) eqn:Ms; cbn [negb].
  2: { split; [intros [c H]; discriminate|intros [H _]; discriminate]. }
  assert (Sz : (exists z, integer size z /\ (1 <= z)%Z) <-> negb (is_int size) || fltb (number_or size) (Num 1) = false).
  { rewrite orb_false_iff, negb_false_iff. split.
    - intros [z [I L]]. apply integer_iff in I. destruct I as [I E]. split; [exact I|]. apply not_true_is_false. intros H.
      apply (integer_at_least size 1 I) in H. lia.
    - intros [I L]. exists (as_integer size). split; [apply integer_iff; auto|].
      destruct (Z_lt_le_dec (as_integer size) 1) as [X|X]; [|exact X]. apply (integer_at_least size 1 I) in X. congruence. }
  rewrite Sz. destruct (negb (is_int size) || _).
  { split; [intros [c H]; discriminate|intros [_ [H _]]; discriminate]. }
  set (D := integration_defaults s).
  assert (Seed : (In "seed" (supported s) -> exists z, integer (picked d "seed" (PyInt 0)) z) <->
    member s random_specifications && negb (is_int (get_or (update D d) "seed" (PyInt 0))) = false).
  { assert (G : get_or (update D d) "seed" (PyInt 0) = picked d "seed" (PyInt 0)).
    { unfold get_or, update, picked. rewrite get_app. destruct (get d "seed"); [reflexivity|]. unfold D, integration_defaults.
      destruct (String.eqb s "halton"); reflexivity. }
    rewrite G. assert (R : In "seed" (supported s) <-> member s random_specifications = true).
    { apply member_in in Ms. cbn in Ms. unfold supported. destruct Ms as [<-|[<-|[<-|[<-|[<-|[<-|[<-|[<-|[]]]]]]]]]; cbn; intuition discriminate. }
    rewrite R. destruct (member s random_specifications); cbn [andb].
    - rewrite negb_false_iff. split.
      + intros H. destruct (H eq_refl) as [z I]. apply integer_iff in I. apply I.
      + intros I _. eexists. apply integer_iff. split; [exact I|reflexivity].
    - split; [reflexivity|discriminate]. }
  rewrite Seed. destruct (member s random_specifications && _).
  { split; [intros [c H]; discriminate|intros [_ [_ [H _]]]; discriminate]. }
  assert (Dc : (In "discard" (supported s) -> exists z, integer (picked d "discard" (PyInt 1000)) z /\ (0 <= z)%Z) <->
    String.eqb s "halton" && (negb (is_int (get_or (update D d) "discard" PyNone)) || fltb (number_or (get_or (update D d) "discard" PyNone)) (Num 0)) = false).
  { unfold supported. destruct (String.eqb_spec s "halton") as [e|Nh].
    - assert (G : get_or (update D d) "discard" PyNone = picked d "discard" (PyInt 1000)).
      { unfold get_or, update, picked. rewrite get_app. destruct (get d "discard"); [reflexivity|]. unfold D. rewrite e. reflexivity. }
      rewrite G. cbn [andb]. rewrite orb_false_iff, negb_false_iff. split.
      + intros H. destruct (H ltac:(cbn; tauto)) as [z [I L]]. apply integer_iff in I. destruct I as [I E]. split; [exact I|].
        apply not_true_is_false. intros X. apply (integer_at_least _ 0 I) in X. lia.
      + intros [I L] _. exists (as_integer (picked d "discard" (PyInt 1000))). split; [apply integer_iff; auto|].
        destruct (Z_lt_le_dec (as_integer (picked d "discard" (PyInt 1000))) 0) as [X|X]; [|exact X]. apply (integer_at_least _ 0 I) in X. congruence.
    - cbn [andb]. split; [reflexivity|]. intros _ H. exfalso. destruct (_ || _) in H; cbn in H; intuition discriminate. }
  rewrite Dc. destruct (String.eqb s "halton" && _).
  { split; [intros [c H]; discriminate|intros [_ [_ [_ H]]]; discriminate]. }
  split; [auto|]. intros _. eexists. reflexivity.
Qed.

Lemma truthy_false t v : truthy t v = false <-> false_like t v.
Proof.
  unfold false_like. destruct v as [|b|z|x|s|n|o]; cbn [truthy].
  - split; auto.
  - split; [intros ->; auto|]. intros H. repeat (destruct H as [H|H]; [first [discriminate H|injection H as ->; reflexivity]|]).
    destruct H as [o [H _]]. discriminate.
  - rewrite negb_false_iff, Z.eqb_eq. split; [intros ->; auto|]. intros H. repeat (destruct H as [H|H]; [first [discriminate H|injection H as ->; reflexivity]|]).
    destruct H as [o [H _]]. discriminate.
  - rewrite negb_false_iff, feqb_zero. split; [intros ->; auto 6|]. intros H. repeat (destruct H as [H|H]; [first [discriminate H|injection H as ->; reflexivity]|]).
    destruct H as [o [H _]]. discriminate.
  - rewrite negb_false_iff, String.eqb_eq. split; [intros ->; auto 7|]. intros H. repeat (destruct H as [H|H]; [first [discriminate H|injection H as ->; reflexivity]|]).
    destruct H as [o [H _]]. discriminate.
  - split; [discriminate|]. intros H. repeat (destruct H as [H|H]; [discriminate H|]). destruct H as [o [H _]]. discriminate.
  - split; [intros H; do 5 right; exists o; auto|]. intros H. repeat (destruct H as [H|H]; [discriminate H|]). destruct H as [q [H Q]].
    injection H as ->. exact Q.
Qed.
Lemma integration_runs s size d c : configure_integration s size (Options d) = Some c ->
  (forall t, s = "halton" -> documented_halton t d (rule_of t c)) /\
  (s = "monte_carlo" -> forall t, rule_of t c = MonteCarlo) /\ (s = "lhs" -> forall t, rule_of t c = Lhs false) /\
  (s = "mlhs" -> forall t, rule_of t c = Lhs true) /\ (s = "product" -> forall t, rule_of t c = ProductRule false) /\
  (s = "nested_product" -> forall t, rule_of t c = ProductRule true) /\
  (s = "grid" \/ s = "nested_grid" -> forall t, rule_of t c = Grid) /\
  seed_of c = (if member "seed" (supported s) then get d "seed" else None).
Proof.
  intros H. assert (A := proj1 (integration_accepted s size d) (ex_intro _ c H)). destruct A as [Ms [_ [_ Dc]]].
  assert (E : c = mk_integration s size (update (integration_defaults s) d)).
  { unfold configure_integration in H. cbn [given acceptable_options negb] in H. destruct (negb (member s specifications)); [discriminate|].
    destruct (negb (is_int size) || _); [discriminate|]. destruct (_ && _) in H; [discriminate|]. destruct (_ && _) in H; [discriminate|].
    injection H as <-. reflexivity. }
  rewrite E. clear E H c. repeat split; intros; try (subst s; reflexivity).
  - subst s. destruct (Dc ltac:(cbn; tauto)) as [z [I L]]. exists z, (truthy t (picked d "scramble" (PyBool true))). split; [exact I|]. split; [|apply truthy_false]. unfold rule_of. cbn [in_specification in_options String.eqb Ascii.eqb Bool.eqb].
    unfold get_or, update. rewrite !get_app. apply integer_iff in I. destruct I as [_ <-]. unfold picked.
    destruct (get d "discard"); destruct (get d "scramble"); reflexivity.
  - destruct H as [->| ->]; reflexivity.
  - unfold seed_of. cbn [in_specification in_options]. unfold update. rewrite get_app. cbn in Ms.
    destruct Ms as [<-|[<-|[<-|[<-|[<-|[<-|[<-|[<-|[]]]]]]]]]; cbn; destruct (get d "seed"); reflexivity.
Qed.

Lemma not_options_refused : (forall s size, configure_integration s size NotOptions = None) /\
  (forall m j, configure_iteration m NotOptions j = None) /\ (forall m g, configure_optimization m NotOptions g = None).
Proof.
  split; [|split].
  - intros s size. unfold configure_integration. destruct (negb _); [reflexivity|]. destruct (_ || _); reflexivity.
  - intros m j. destruct m; try reflexivity. cbn [configure_iteration acceptable_options negb]. destruct (negb _); reflexivity.
  - intros m g. destruct m; try reflexivity. cbn [configure_optimization acceptable_options negb]. destruct (negb _); reflexivity.
Qed.
Lemma no_options_empty : (forall s size, configure_integration s size NoOptions = configure_integration s size (Options [])) /\
  (forall m j, configure_iteration m NoOptions j = configure_iteration m (Options []) j) /\
  (forall m g, configure_optimization m NoOptions g = configure_optimization m (Options []) g).
Proof. repeat split; intros; try reflexivity. Qed.

Lemma knitro_call o g c : configure_optimization (PyStr "knitro") (Options o) g = Some c ->
  op_bounds c = true /\ op_gradient c = g /\
  forall k, get (op_options c) k = if String.eqb k "knitro_dir" then None else
    match get o k with
    | Some v => Some v
    | None => if String.eqb k "hessopt" then Some (PyInt 2) else if String.eqb k "algorithm" then Some (PyInt 1)
              else if String.eqb k "honorbnds" then Some (PyInt 1)
              else if String.eqb k "gradopt" then Some (PyInt (if g then 1 else 2))
              else if String.eqb k "outlev" then Some (PyInt 0) else None
    end.
Proof.
  unfold configure_optimization. cbn -[delete update optimization_defaults]. intros H. injection H as <-. cbn [op_bounds op_gradient op_options].
  split; [reflexivity|]. split; [reflexivity|]. intros k. rewrite get_delete. rewrite (String.eqb_sym k "knitro_dir").
  destruct (String.eqb "knitro_dir" k); [reflexivity|]. unfold update. rewrite get_app. destruct (get o k); [reflexivity|].
  unfold optimization_defaults. cbn [String.eqb Ascii.eqb Bool.eqb get].
  rewrite (String.eqb_sym k "hessopt"), (String.eqb_sym k "algorithm"), (String.eqb_sym k "honorbnds"), (String.eqb_sym k "gradopt"), (String.eqb_sym k "outlev").
  reflexivity.
Qed.
