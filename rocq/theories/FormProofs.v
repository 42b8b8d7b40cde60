(** Lemmas about formulas. *)
From Coq Require Import Reals Lra Lia List Bool Arith ZArith Ascii String.
From Verif Require Import FormModel FormSpec.
Import ListNotations.
Local Open Scope R_scope.

(* ---------- evaluation ---------- *)

Lemma evaluate_value look rho e :
  (forall s, In s (free e) -> look s = Some (rho s)) -> evaluate look e = Some (value rho e).
Proof.
  induction e as [c|s|a IHa b IHb|a IHa b IHb|a IHa n|a IHa|a IHa]; cbn [free evaluate value]; intros H.
  - reflexivity.
  - apply H. left; reflexivity.
  - rewrite IHa, IHb by (intros; apply H, in_or_app; auto). reflexivity.
  - rewrite IHa, IHb by (intros; apply H, in_or_app; auto). reflexivity.
  - rewrite IHa by auto. reflexivity.
  - rewrite IHa by auto. reflexivity.
  - rewrite IHa by auto. reflexivity.
Qed.

Lemma value_ext rho rho' e : (forall s, In s (free e) -> rho s = rho' s) -> value rho e = value rho' e.
Proof.
  induction e as [c|s|a IHa b IHb|a IHa b IHb|a IHa n|a IHa|a IHa]; cbn [free value]; intros H.
  - reflexivity.
  - apply H. left; reflexivity.
  - rewrite IHa, IHb by (intros; apply H, in_or_app; auto). reflexivity.
  - rewrite IHa, IHb by (intros; apply H, in_or_app; auto). reflexivity.
  - rewrite IHa by auto. reflexivity.
  - rewrite IHa by auto. reflexivity.
  - rewrite IHa by auto. reflexivity.
Qed.

Lemma defined_ext rho rho' e : (forall s, In s (free e) -> rho s = rho' s) -> defined rho e -> defined rho' e.
Proof.
  induction e as [c|s|a IHa b IHb|a IHa b IHb|a IHa n|a IHa|a IHa]; cbn [free defined]; intros H.
  - auto.
  - auto.
  - intros [A B]. split; [apply IHa|apply IHb]; auto; intros; apply H, in_or_app; auto.
  - intros [A B]. split; [apply IHa|apply IHb]; auto; intros; apply H, in_or_app; auto.
  - intros [A B]. rewrite <- (value_ext rho rho' a H). auto.
  - auto.
  - intros [A B]. rewrite <- (value_ext rho rho' a H). auto.
Qed.

(* ---------- derivatives ---------- *)

Lemma set_same rho s : forall t, set_var rho s (rho s) t = rho t.
Proof. intros t. unfold set_var. destruct (String.eqb_spec t s) as [->|]; reflexivity. Qed.

Lemma powerRZ_deriv n x : (n <> 0)%Z -> ((n < 0)%Z -> x <> 0) ->
  derivable_pt_lim (fun y => powerRZ y n) x (IZR n * powerRZ x (n - 1)).
Proof.
  intros N0 H. destruct n as [|p|p]; [contradiction| |].
  - cbn [powerRZ].
    assert (D := derivable_pt_lim_pow x (Pos.to_nat p)).
    assert (E : INR (Pos.to_nat p) * x ^ Nat.pred (Pos.to_nat p) = IZR (Z.pos p) * powerRZ x (Z.pos p - 1)).
    { f_equal; [rewrite INR_IZR_INZ, positive_nat_Z; reflexivity|].
      destruct (Pos.eq_dec p 1) as [->|Hp]; [reflexivity|].
      replace (Z.pos p - 1)%Z with (Z.pos (Pos.pred p)) by lia. cbn [powerRZ]. f_equal. lia. }
    rewrite <- E. exact D.
  - assert (Hx : x <> 0) by (apply H; lia).
    assert (D := derivable_pt_lim_pow x (Pos.to_nat p)).
    assert (Px : x ^ Pos.to_nat p <> 0) by (apply pow_nonzero; assumption).
    assert (D2 := derivable_pt_lim_div (fun _ => 1) (fun y => y ^ Pos.to_nat p) x 0 _ (derivable_pt_lim_const 1 x) D Px).
    assert (E : (0 * x ^ Pos.to_nat p - INR (Pos.to_nat p) * x ^ Nat.pred (Pos.to_nat p) * 1) / Rsqr (x ^ Pos.to_nat p)
                = IZR (Z.neg p) * powerRZ x (Z.neg p - 1)).
    { replace (Z.neg p - 1)%Z with (Z.neg (Pos.succ p)) by lia. cbn [powerRZ]. rewrite Pos2Nat.inj_succ.
      replace (IZR (Z.neg p)) with (- INR (Pos.to_nat p)) by (rewrite INR_IZR_INZ, positive_nat_Z; reflexivity).
      destruct (Pos.to_nat p) as [|k] eqn:Ek; [lia|]. cbn [Nat.pred]. unfold Rsqr.
      cbn [pow]. assert (x ^ k <> 0) by (apply pow_nonzero; assumption).
      field. split; assumption. }
    rewrite <- E. 
    assert (EX : forall y, (fun y0 : R => powerRZ y0 (Z.neg p)) y = (fun _ : R => 1) y / (fun y0 => y0 ^ Pos.to_nat p) y).
    { intros y. cbn [powerRZ]. unfold Rdiv. ring. }
    intros eps He. destruct (D2 eps He) as [d Hd]. exists d. intros h Hh Hl.
    specialize (Hd h Hh Hl). unfold div_fct in Hd. rewrite !EX. exact Hd.
Qed.

Lemma diff_defined rho s e : defined rho e -> defined rho (diff s e).
Proof.
  induction e as [c|t|a IHa b IHb|a IHa b IHb|a IHa n|a IHa|a IHa]; cbn [diff defined].
  - auto.
  - intros _. destruct (String.eqb t s); exact I.
  - intros [A B]. auto.
  - intros [A B]. repeat split; auto.
  - intros [A B]. destruct (Z.eqb_spec n 0); [exact I|]. cbn [defined]. repeat split; auto. intros Hn. apply B. lia.
  - intros A. auto.
  - intros [A B]. cbn [defined]. repeat split; auto. intros _. lra.
Qed.

Lemma diff_deriv rho s e : defined rho e ->
  derivable_pt_lim (fun x => value (set_var rho s x) e) (rho s) (value rho (diff s e)).
Proof.
  assert (VE : forall e, value (set_var rho s (rho s)) e = value rho e).
  { intros a. apply value_ext. intros t _. apply set_same. }
  induction e as [c|t|a IHa b IHb|a IHa b IHb|a IHa n|a IHa|a IHa]; cbn [diff defined value].
  - intros _. apply derivable_pt_lim_const.
  - intros _. unfold set_var. destruct (String.eqb_spec t s) as [->|Hn]; cbn [value].
    + apply derivable_pt_lim_id.
    + apply derivable_pt_lim_const.
  - intros [A B]. apply (derivable_pt_lim_plus (fun x => value (set_var rho s x) a) (fun x => value (set_var rho s x) b)); auto.
  - intros [A B].
    assert (D := derivable_pt_lim_mult (fun x => value (set_var rho s x) a) (fun x => value (set_var rho s x) b) (rho s) _ _ (IHa A) (IHb B)).
    cbv beta in D. rewrite !VE in D. exact D.
  - intros [A B]. destruct (Z.eqb_spec n 0) as [->|Hn].
    + cbn [value powerRZ]. apply derivable_pt_lim_const.
    + cbn [value]. apply (derivable_pt_lim_comp (fun x => value (set_var rho s x) a) (fun y => powerRZ y n)); [auto|].
      rewrite VE. apply powerRZ_deriv; assumption.
  - intros A. 
    assert (D := derivable_pt_lim_comp (fun x => value (set_var rho s x) a) exp (rho s) _ _ (IHa A) (derivable_pt_lim_exp _)).
    cbv beta in D. rewrite VE in D. exact D.
  - intros [A B].
    assert (D := derivable_pt_lim_comp (fun x => value (set_var rho s x) a) ln (rho s) _ (/ value rho a) (IHa A)).
    cbv beta in D. rewrite VE in D. cbn [powerRZ Pos.to_nat Pos.iter_op]. 
    replace (/ value rho a ^ Pos.to_nat 1) with (/ value rho a) by (rewrite Pos2Nat.inj_1, pow_1; reflexivity).
    apply D. apply derivable_pt_lim_ln. assumption.
Qed.

Lemma iter_defined rho s e n : defined rho e -> defined rho (Nat.iter n (diff s) e).
Proof. intros H. induction n as [|n IH]; [exact H|]. cbn [Nat.iter nat_rect]. apply diff_defined. exact IH. Qed.

Lemma iter_deriv rho s e n : defined rho e ->
  derivable_pt_lim (fun x => value (set_var rho s x) (Nat.iter n (diff s) e)) (rho s)
    (value rho (Nat.iter (S n) (diff s) e)).
Proof.
  intros H. change (Nat.iter (S n) (diff s) e) with (diff s (Nat.iter n (diff s) e)).
  apply diff_deriv. apply iter_defined. exact H.
Qed.

Lemma diff_free s e : incl (free (diff s e)) (free e).
Proof.
  induction e as [c|t|a IHa b IHb|a IHa b IHb|a IHa n|a IHa|a IHa]; cbn [diff free].
  - apply incl_refl.
  - destruct (String.eqb t s); intros x [].
  - apply incl_app; [apply incl_appl|apply incl_appr]; assumption.
  - repeat apply incl_app; try (apply incl_appl; assumption); try (apply incl_appr; assumption);
      [apply incl_appr|apply incl_appl]; apply incl_refl.
  - destruct (Z.eqb n 0); [intros x []|]. cbn [free app]. apply incl_app; [apply incl_refl|assumption].
  - cbn [free]. apply incl_app; [apply incl_refl|assumption].
  - cbn [free]. apply incl_app; [apply incl_refl|assumption].
Qed.

(* ---------- the cache ---------- *)

Definition cache_ok (e : expr) (c : cache) : Prop :=
  forall n o d, cached c n o = Some d -> d = Nat.iter o (diff n) e.

Lemma differentiate_ok e c n o : cache_ok e c ->
  fst (differentiate e c n o) = Nat.iter o (diff n) e /\ cache_ok e (snd (differentiate e c n o)).
Proof.
  intros H. unfold differentiate. destruct (cached c n o) as [d|] eqn:E; cbn [fst snd].
  - split; [apply H; assumption|assumption].
  - split; [reflexivity|]. intros n' o' d'. cbn [cached].
    destruct (String.eqb_spec n n') as [<-|]; cbn [andb]; [|apply H].
    destruct (Nat.eqb_spec o o') as [<-|]; [|apply H]. intros [= <-]. reflexivity.
Qed.

Lemma calls_ok e l : fst (calls e l) = map (fun no => Nat.iter (snd no) (diff (fst no)) e) l /\ cache_ok e (snd (calls e l)).
Proof.
  induction l as [|[n o] l [IH1 IH2]]; [split; [reflexivity|intros ? ? ? [=]]|].
  cbn [calls map fst snd]. destruct (calls e l) as [rs c]. cbn [fst snd] in *.
  destruct (differentiate_ok e c n o IH2) as [D1 D2]. destruct (differentiate e c n o) as [r c'].
  cbn [fst snd] in *. subst. split; [reflexivity|assumption].
Qed.

(* ---------- columns ---------- *)

Lemma bracket_app a b : has_bracket (a ++ b) = has_bracket a || has_bracket b.
Proof. induction a as [|c a IH]; [reflexivity|]. cbn [String.append has_bracket]. rewrite IH, orb_assoc. reflexivity. Qed.

Lemma full_bracket v l : has_bracket (full_symbol v l) = true.
Proof. unfold full_symbol. rewrite bracket_app. apply orb_true_iff. right. reflexivity. Qed.

Lemma append_close_inj a b : (a ++ "]" = b ++ "]" -> a = b)%string.
Proof.
  revert b. induction a as [|c a IH]; destruct b as [|d b]; cbn [String.append]; intros H.
  - reflexivity.
  - destruct b; cbn in H; discriminate.
  - destruct a; cbn in H; discriminate.
  - injection H as -> H. f_equal. apply IH. exact H.
Qed.

Lemma full_inj v l v' l' : has_bracket v = false -> has_bracket v' = false ->
  full_symbol v l = full_symbol v' l' -> v = v' /\ l = l'.
Proof.
  unfold full_symbol. revert v'. induction v as [|c v IH]; destruct v' as [|d v']; cbn [String.append]; intros H H' E.
  - split; [reflexivity|]. apply append_close_inj. injection E as E. exact E.
  - injection E as E1 E2. subst d. cbn in H'. discriminate.
  - injection E as E1 E2. subst c. cbn in H. discriminate.
  - injection E as -> E. cbn [has_bracket] in H, H'. apply orb_false_iff in H, H'.
    destruct (IH v' (proj2 H) (proj2 H') E) as [-> ->]. split; reflexivity.
Qed.

(** Evaluating after replacing is evaluating with the replaced symbol looked up elsewhere. *)
Lemma value_replace rho v f e :
  value rho (replace v (Sym f) e) = value (set_var rho v (rho f)) e.
Proof.
  induction e as [c|s|a IHa b IHb|a IHa b IHb|a IHa n|a IHa|a IHa]; cbn [replace value]; try congruence.
  unfold set_var. destruct (String.eqb_spec s v); reflexivity.
Qed.

Lemma defined_replace rho v f e :
  defined (set_var rho v (rho f)) e -> defined rho (replace v (Sym f) e).
Proof.
  induction e as [c|s|a IHa b IHb|a IHa b IHb|a IHa n|a IHa|a IHa]; cbn [replace defined]; rewrite ?value_replace; try tauto.
  intros _. destruct (String.eqb s v); exact I.
Qed.

Lemma free_replace v f e : forall s, In s (free (replace v (Sym f) e)) -> (In s (free e) /\ s <> v) \/ (s = f /\ In v (free e)).
Proof.
  induction e as [c|t|a IHa b IHb|a IHa b IHb|a IHa n|a IHa|a IHa]; cbn [replace free]; intros s H; auto.
  - destruct (String.eqb_spec t v) as [->|Hn]; cbn [free] in H.
    + destruct H as [<-|[]]. right. split; [reflexivity|left; reflexivity].
    + destruct H as [<-|[]]. left. split; [left; reflexivity|assumption].
  - apply in_app_or in H. destruct H as [H|H]; [apply IHa in H|apply IHb in H];
      destruct H as [[H1 H2]|[H1 H2]]; [left|right|left|right]; (split; [try apply in_or_app; auto|try apply in_or_app; auto]).
  - apply in_app_or in H. destruct H as [H|H]; [apply IHa in H|apply IHb in H];
      destruct H as [[H1 H2]|[H1 H2]]; [left|right|left|right]; (split; [try apply in_or_app; auto|try apply in_or_app; auto]).
Qed.

(** The environment in which the unreplaced term is evaluated. *)
Fixpoint see (levels : list (string * string)) (rho : string -> R) : string -> R :=
  match levels with
  | [] => rho
  | (v, l) :: ls => set_var (see ls rho) v (rho (full_symbol v l))
  end.

Definition replace_all (levels : list (string * string)) (e : expr) : expr :=
  fold_left (fun e vl => replace (fst vl) (Sym (full_symbol (fst vl) (snd vl))) e) levels e.

Lemma see_bracket levels rho s : (forall v l, In (v, l) levels -> has_bracket v = false) ->
  has_bracket s = true -> see levels rho s = rho s.
Proof.
  induction levels as [|[v l] ls IH]; intros H Hs; [reflexivity|]. cbn [see]. unfold set_var.
  destruct (String.eqb_spec s v) as [->|].
  - rewrite (H v l (or_introl eq_refl)) in Hs. discriminate.
  - apply IH; [intros; eapply H; right; eassumption|assumption].
Qed.

Lemma value_replace_all levels rho : forall e,
  (forall v l, In (v, l) levels -> has_bracket v = false) ->
  value rho (replace_all levels e) = value (see levels rho) e.
Proof.
  induction levels as [|[v l] ls IH]; intros e H; [reflexivity|].
  unfold replace_all. cbn [fold_left fst snd]. fold (replace_all ls (replace v (Sym (full_symbol v l)) e)).
  assert (H' : forall v0 l0, In (v0, l0) ls -> has_bracket v0 = false) by (intros; eapply H; right; eassumption).
  rewrite IH by exact H'. rewrite value_replace. cbn [see].
  rewrite see_bracket by (try exact H'; apply full_bracket). reflexivity.
Qed.

Lemma defined_replace_all levels rho : forall e,
  (forall v l, In (v, l) levels -> has_bracket v = false) ->
  defined (see levels rho) e -> defined rho (replace_all levels e).
Proof.
  induction levels as [|[v l] ls IH]; intros e H D; [exact D|].
  unfold replace_all. cbn [fold_left fst snd]. fold (replace_all ls (replace v (Sym (full_symbol v l)) e)).
  assert (H' : forall v0 l0, In (v0, l0) ls -> has_bracket v0 = false) by (intros; eapply H; right; eassumption).
  apply IH; [exact H'|]. apply defined_replace. cbn [see] in D.
  rewrite see_bracket by (try exact H'; apply full_bracket). exact D.
Qed.

Lemma free_replace_all levels : forall e s,
  (forall v l, In (v, l) levels -> has_bracket v = false) ->
  In s (free (replace_all levels e)) ->
  (In s (free e) /\ ~ In s (map fst levels)) \/ (exists v l, In (v, l) levels /\ s = full_symbol v l).
Proof.
  induction levels as [|[v l] ls IH]; intros e s H Hs; [left; split; [exact Hs|intros []]|].
  unfold replace_all in Hs. cbn [fold_left fst snd] in Hs.
  fold (replace_all ls (replace v (Sym (full_symbol v l)) e)) in Hs.
  apply IH in Hs; [|intros; eapply H; right; eassumption].
  destruct Hs as [[Hs Hn]|[v' [l' [Hin ->]]]].
  - apply free_replace in Hs. destruct Hs as [[Hs Hv]|[-> _]].
    + left. split; [assumption|]. cbn [map fst]. intros [E|E]; [subst; contradiction|contradiction].
    + right. exists v, l. split; [left; reflexivity|reflexivity].
  - right. exists v', l'. split; [right; assumption|reflexivity].
Qed.

Lemma term_value rho : forall t acc,
  value rho (fold_left (fun acc f => Mul acc (factor_expression f)) t acc)
  = value rho acc * fold_right (fun f r => value rho (factor_expression f) * r) 1 t.
Proof.
  induction t as [|f t IH]; intros acc; cbn [fold_left fold_right]; [ring|]. rewrite IH. cbn [value]. ring.
Qed.

Lemma term_free : forall t acc s,
  In s (free (fold_left (fun acc f => Mul acc (factor_expression f)) t acc)) <->
  In s (free acc) \/ In s (categories t) \/ In s (numeric_symbols t).
Proof.
  induction t as [|[e|v] t IH]; intros acc s; cbn [fold_left categories numeric_symbols].
  - cbn. tauto.
  - rewrite IH. cbn [factor_expression free]. rewrite !in_app_iff. tauto.
  - rewrite IH. cbn [factor_expression free]. rewrite in_app_iff. cbn [In]. tauto.
Qed.

Lemma term_defined rho : forall t acc,
  defined rho acc -> (forall e, In (Numeric e) t -> defined rho e) ->
  defined rho (fold_left (fun acc f => Mul acc (factor_expression f)) t acc).
Proof.
  induction t as [|f t IH]; intros acc Ha H; [exact Ha|]. cbn [fold_left]. apply IH.
  - cbn [defined]. split; [exact Ha|]. destruct f as [e|v]; cbn [factor_expression defined]; [|exact I].
    apply H. left; reflexivity.
  - intros e He. apply H. right; assumption.
Qed.

(** What a look-up sees of the levels of a term. *)
Lemma design_from_env (look : string -> R) (rho : string -> R) level_of : forall t levels,
  map fst levels = categories t ->
  (forall v l, In (v, l) levels -> look v = if String.eqb (level_of v) l then 1 else 0) ->
  (forall s, In s (numeric_symbols t) -> look s = rho s) ->
  fold_right (fun f r => value look (factor_expression f) * r) 1 t = design_value rho level_of t levels.
Proof.
  induction t as [|[e|v] t IH]; intros levels E Hc Hn; cbn [fold_right design_value factor_expression categories numeric_symbols] in *.
  - reflexivity.
  - rewrite (IH levels) by (try assumption; intros; apply Hn, in_or_app; auto).
    f_equal. apply value_ext. intros s Hs. apply Hn, in_or_app. auto.
  - destruct levels as [|[w l] ls]; [discriminate|]. cbn [map fst] in E. injection E as -> E.
    rewrite (IH ls) by (try assumption; intros; apply Hc; right; assumption).
    cbn [value]. rewrite (Hc v l (or_introl eq_refl)). reflexivity.
Qed.

Lemma see_level levels rho v l : NoDup (map fst levels) -> In (v, l) levels -> see levels rho v = rho (full_symbol v l).
Proof.
  induction levels as [|[w k] ls IH]; intros ND Hin; [contradiction|]. cbn [map fst] in ND. inversion ND as [|? ? N1 N2]; subst.
  cbn [see]. unfold set_var. destruct Hin as [E|Hin].
  - injection E as -> ->. rewrite String.eqb_refl. reflexivity.
  - destruct (String.eqb_spec v w) as [->|]; [|auto]. exfalso. apply N1. apply in_map_iff. exists (w, l). auto.
Qed.

Lemma see_other levels rho s : ~ In s (map fst levels) -> see levels rho s = rho s.
Proof.
  induction levels as [|[w k] ls IH]; intros H; [reflexivity|]. cbn [see map fst In] in *. unfold set_var.
  destruct (String.eqb_spec s w) as [->|]; [exfalso; apply H; left; reflexivity|]. apply IH. tauto.
Qed.

(* ---------- the underlying data ---------- *)

(** The row's values under their names, indicators included. *)
Definition found (indicators : list (string * string)) (s : string) : option (string * string) :=
  find (fun vl => String.eqb (full_symbol (fst vl) (snd vl)) s) (rev indicators).

Definition env_of (indicators : list (string * string)) (level_of : string -> string) (rho : string -> R) (s : string) : R :=
  match found indicators s with
  | Some (v, l) => if String.eqb (level_of v) l then 1 else 0
  | None => rho s
  end.

Lemma found_plain indicators s : has_bracket s = false -> found indicators s = None.
Proof.
  intros H. unfold found. destruct (find _ (rev indicators)) as [[v l]|] eqn:E; [|reflexivity].
  apply find_some in E. destruct E as [_ E]. cbn [fst snd] in E. apply String.eqb_eq in E.
  rewrite <- E, full_bracket in H. discriminate.
Qed.

Lemma found_full indicators v l : (forall w k, In (w, k) indicators -> has_bracket w = false) ->
  In (v, l) indicators -> found indicators (full_symbol v l) = Some (v, l).
Proof.
  intros H Hin. unfold found. destruct (find _ (rev indicators)) as [[w k]|] eqn:E.
  - apply find_some in E. destruct E as [Hw E]. cbn [fst snd] in E. apply String.eqb_eq in E.
    apply in_rev in Hw. apply full_inj in E; [|eapply H; eassumption|eapply H; eassumption].
    destruct E as [-> ->]. reflexivity.
  - exfalso. apply in_rev in Hin. assert (F := find_none _ _ E _ Hin). cbn [fst snd] in F.
    rewrite String.eqb_refl in F. discriminate.
Qed.

Section Column.
Variables (t : list factor) (levels indicators : list (string * string)) (level_of : string -> string) (columns : list expr).
Hypothesis shape : map fst levels = categories t.
Hypothesis distinct : NoDup (categories t).
Hypothesis apart : forall v, In v (categories t) -> ~ In v (numeric_symbols t).
Hypothesis plain : forall s, In s (numeric_symbols t) -> has_bracket s = false.
Hypothesis known_levels : incl levels indicators.
Hypothesis plain_indicators : forall v l, In (v, l) indicators -> has_bracket v = false.
Hypothesis built : In (column_expression t levels) columns.

Lemma plain_levels : forall v l, In (v, l) levels -> has_bracket v = false.
Proof. intros v l H. eapply plain_indicators. apply known_levels. exact H. Qed.

Lemma see_numeric rho s : In s (numeric_symbols t) -> see levels (env_of indicators level_of rho) s = rho s.
Proof.
  intros H. rewrite see_other by (rewrite shape; intros C; exact (apart _ C H)).
  unfold env_of. rewrite found_plain by auto. reflexivity.
Qed.

Lemma column_value rho :
  value (env_of indicators level_of rho) (column_expression t levels) = design_value rho level_of t levels.
Proof.
  unfold column_expression. fold (replace_all levels (term_expression t)).
  rewrite value_replace_all by exact plain_levels. unfold term_expression. rewrite term_value. cbn [value].
  rewrite Rmult_1_l. apply design_from_env; [exact shape| |intros; apply see_numeric; assumption].
  intros v l H. rewrite (see_level levels _ v l) by (try rewrite shape; assumption).
  unfold env_of. rewrite found_full by auto. reflexivity.
Qed.

Lemma column_free s : In s (free (column_expression t levels)) ->
  In s (numeric_symbols t) \/ exists v l, In (v, l) indicators /\ s = full_symbol v l.
Proof.
  unfold column_expression. fold (replace_all levels (term_expression t)). intros H.
  apply free_replace_all in H; [|exact plain_levels]. destruct H as [[H N]|[v [l [H E]]]].
  - unfold term_expression in H. apply term_free in H. rewrite shape in N. cbn [free In] in H. left. tauto.
  - right. exists v, l. split; [apply known_levels; exact H|exact E].
Qed.

Lemma underlying_env raw rho s : (forall s, In s (numeric_symbols t) -> raw s = Some (rho s)) ->
  In s (free (column_expression t levels)) ->
  underlying columns indicators raw level_of s = Some (env_of indicators level_of rho s).
Proof.
  intros Hraw Hs. unfold underlying, env_of. fold (found indicators s).
  replace (existsb (fun e => existsb (String.eqb s) (free e)) columns) with true.
  - apply column_free in Hs. destruct Hs as [Hs|[v [l [Hin ->]]]].
    + rewrite found_plain by auto. auto.
    + rewrite found_full by auto. reflexivity.
  - symmetry. apply existsb_exists. exists (column_expression t levels). split; [exact built|].
    apply existsb_exists. exists s. split; [exact Hs|apply String.eqb_refl].
Qed.

Lemma column_evaluates raw rho : (forall s, In s (numeric_symbols t) -> raw s = Some (rho s)) ->
  evaluate (underlying columns indicators raw level_of) (column_expression t levels)
  = Some (design_value rho level_of t levels).
Proof.
  intros H. rewrite (evaluate_value _ (env_of indicators level_of rho)).
  - rewrite column_value. reflexivity.
  - intros s Hs. apply underlying_env; assumption.
Qed.

Lemma env_set rho s x : has_bracket s = false -> forall n,
  env_of indicators level_of (set_var rho s x) n = set_var (env_of indicators level_of rho) s x n.
Proof.
  intros Hb n. unfold env_of, set_var. destruct (String.eqb_spec n s) as [->|Hn].
  - rewrite found_plain by assumption. reflexivity.
  - reflexivity.
Qed.

Lemma column_defined rho : (forall e, In (Numeric e) t -> defined rho e) ->
  defined (env_of indicators level_of rho) (column_expression t levels).
Proof.
  intros H. unfold column_expression. fold (replace_all levels (term_expression t)).
  apply defined_replace_all; [exact plain_levels|]. apply term_defined; [exact I|].
  intros e He. apply (defined_ext rho); [|auto]. intros s Hs. symmetry. apply see_numeric.
  clear - He Hs. induction t as [|[e'|v] t' IH]; cbn [numeric_symbols].
  - contradiction.
  - apply in_or_app. destruct He as [E|He]; [injection E as ->; left; exact Hs|right; auto].
  - destruct He as [E|He]; [discriminate|auto].
Qed.

Lemma iter_free s n e : incl (free (Nat.iter n (diff s) e)) (free e).
Proof.
  induction n as [|n IH]; [apply incl_refl|].
  change (Nat.iter (S n) (diff s) e) with (diff s (Nat.iter n (diff s) e)).
  eapply incl_tran; [apply diff_free|exact IH].
Qed.

Lemma column_derivatives raw (rho : string -> R) s history : has_bracket s = false ->
  (forall x n, In n (numeric_symbols t) -> raw x n = Some (set_var rho s x n)) ->
  exists f : nat -> R -> R,
    (forall x, f 0%nat x = design_value (set_var rho s x) level_of t levels) /\
    (forall order x,
       evaluate (underlying columns indicators (raw x) level_of)
         (fst (differentiate (column_expression t levels) (snd (calls (column_expression t levels) history)) s order))
       = Some (f order x)) /\
    (forall order x, (forall e, In (Numeric e) t -> defined (set_var rho s x) e) ->
       derivable_pt_lim (f order) x (f (S order) x)).
Proof.
  intros Hb Hraw.
  exists (fun k x => value (env_of indicators level_of (set_var rho s x)) (Nat.iter k (diff s) (column_expression t levels))).
  split; [|split].
  - intros x. cbn [Nat.iter nat_rect]. apply column_value.
  - intros order x. destruct (calls_ok (column_expression t levels) history) as [_ C].
    rewrite (proj1 (differentiate_ok _ _ s order C)). apply evaluate_value.
    intros n Hn. apply underlying_env; [apply Hraw|]. apply (iter_free s order). exact Hn.
  - intros order x D.
    assert (E := iter_deriv (env_of indicators level_of (set_var rho s x)) s (column_expression t levels) order
                   (column_defined _ D)).
    assert (Ex : env_of indicators level_of (set_var rho s x) s = x).
    { unfold env_of. rewrite found_plain by assumption. unfold set_var. rewrite String.eqb_refl. reflexivity. }
    rewrite Ex in E. 
    assert (Q : forall y, value (set_var (env_of indicators level_of (set_var rho s x)) s y) (Nat.iter order (diff s) (column_expression t levels))
                  = value (env_of indicators level_of (set_var rho s y)) (Nat.iter order (diff s) (column_expression t levels))).
    { intros y. apply value_ext. intros n _. rewrite <- env_set by assumption.
      unfold env_of. destruct (found indicators n) as [[? ?]|]; [reflexivity|]. unfold set_var.
      destruct (String.eqb n s); reflexivity. }
    intros eps He. destruct (E eps He) as [d Hd]. exists d. intros h Hh Hl. rewrite <- !Q. exact (Hd h Hh Hl).
Qed.

Lemma column_override raw rho s x : has_bracket s = false ->
  (forall n, In n (numeric_symbols t) -> raw n = Some (rho n)) ->
  evaluate (symbol_data (underlying columns indicators raw level_of)
              (fun n => if String.eqb n s then Some x else None)) (column_expression t levels)
  = Some (design_value (set_var rho s x) level_of t levels).
Proof.
  intros Hb Hraw. rewrite <- column_value. apply evaluate_value. intros n Hn.
  unfold symbol_data. rewrite env_set by assumption. unfold set_var.
  destruct (String.eqb_spec n s) as [->|]; [reflexivity|]. apply underlying_env; assumption.
Qed.

End Column.

(* ---------- validation ---------- *)

Fixpoint tree_size (t : tree) : nat :=
  match t with TApp _ args => S (fold_right (fun a n => (tree_size a + n)%nat) 0%nat args) | _ => 1%nat end.

Lemma size_in f args a : In a args -> (tree_size a < tree_size (TApp f args))%nat.
Proof.
  intros H. cbn [tree_size]. induction args as [|b args IH]; [contradiction|]. cbn [fold_right].
  destruct H as [->|H]; [lia|]. specialize (IH H). lia.
Qed.

Lemma validate_app f args d c :
  validate_categorical (TApp f args) d c =
  (negb (c && Nat.ltb 1 d) &&
   forallb (fun arg => negb (c && negb (is_symbol arg)) && validate_categorical arg (S d) (is_C f)) args)%bool.
Proof. reflexivity. Qed.

(** Below the root, no marker with arguments. *)
Lemma deep_marker : forall n t d, (tree_size t < n)%nat -> (1 <= d)%nat ->
  validate_categorical t d false = true ->
  forall args, (t = TApp FC args \/ inside (TApp FC args) t) -> args = [].
Proof.
  induction n as [|n IH]; intros t d Hn Hd V args H; [lia|].
  destruct H as [->|H].
  - rewrite validate_app in V. cbn [andb negb is_C] in V. destruct args as [|a args]; [reflexivity|].
    cbn [forallb] in V. apply andb_true_iff in V. destruct V as [V _]. 
    assert (L : Nat.ltb 1 (S d) = true) by (apply Nat.ltb_lt; lia).
    destruct a; cbn [validate_categorical andb] in V; rewrite L in V; discriminate.
  - assert (K : forall f cs a, t = TApp f cs -> In a cs -> (a = TApp FC args \/ inside (TApp FC args) a) -> args = []).
    { intros f cs a -> Ha Hor. rewrite validate_app in V. cbn [andb negb] in V. rewrite forallb_forall in V.
      specialize (V a Ha). destruct (is_C f) eqn:F.
      - assert (L : Nat.ltb 1 (S d) = true) by (apply Nat.ltb_lt; lia).
        destruct a; cbn [validate_categorical andb] in V; rewrite L in V; discriminate.
      - apply (IH a (S d)); [assert (S := size_in f cs a Ha); lia|lia|exact V|exact Hor]. }
    inversion H as [f cs a Hin E1 E2|f cs a b Hin Hdeep E1 E2]; subst.
    + eapply K; [reflexivity|exact Hin|left; reflexivity].
    + eapply K; [reflexivity|exact Hin|right; exact Hdeep].
Qed.

(** Trees without a marker inside pass at any depth. *)
Lemma no_marker_valid : forall n t d, (tree_size t < n)%nat ->
  (forall args, t = TApp FC args \/ inside (TApp FC args) t -> args = []) ->
  validate_categorical t d false = true.
Proof.
  induction n as [|n IH]; intros t d Hn H; [lia|]. destruct t as [s| |f args]; try reflexivity.
  rewrite validate_app. cbn [andb negb]. apply forallb_forall. intros a Ha.
  assert (S := size_in f args a Ha). destruct (is_C f) eqn:F.
  - destruct f; try discriminate. rewrite (H args (or_introl eq_refl)) in Ha. contradiction.
  - apply IH; [lia|]. intros cs [->|Hin]; apply H; right; [constructor; assumption|eapply inside_deeper; eassumption].
Qed.

(** Exactly which formulas pass. *)
Lemma validate_root f args :
  validate_categorical (TApp f args) 0 false = true <->
  (forall cs, inside (TApp FC cs) (TApp f args) -> cs = []) /\
  (f = FC -> forall g cs a, In (TApp g cs) args -> In a cs -> is_symbol a = true).
Proof.
  split.
  - intros V. rewrite validate_app in V. cbn [andb negb] in V. rewrite forallb_forall in V.
    assert (CA : f = FC -> forall g cs a, In (TApp g cs) args -> In a cs ->
                 is_symbol a = true /\ validate_categorical a 2 (is_C g) = true).
    { intros -> g cs a Hg Ha. specialize (V _ Hg). cbn [is_C] in V. rewrite validate_app in V.
      apply andb_true_iff in V. destruct V as [_ V]. rewrite forallb_forall in V. specialize (V a Ha).
      apply andb_true_iff in V. destruct V as [V1 V2]. cbn [andb] in V1. rewrite negb_involutive in V1. auto. }
    split; [|intros F g cs a Hg Ha; apply (CA F g cs a Hg Ha)].
    intros cs H. 
    destruct (is_C f) eqn:F.
    + destruct f; try discriminate.
      inversion H as [f0 cs0 a Hin E1 E2|f0 cs0 a b Hin Hdeep E1 E2]; subst.
      * destruct cs as [|a cs]; [reflexivity|]. exfalso.
        destruct (CA eq_refl FC (a :: cs) a Hin (or_introl eq_refl)) as [_ W].
        destruct a; cbn in W; discriminate.
      * exfalso. inversion Hdeep as [f1 cs1 a1 Hin1 E1 E2|f1 cs1 a1 b1 Hin1 Hdeep1 E1 E2]; subst.
        -- destruct (CA eq_refl f1 cs1 _ Hin Hin1) as [W _]. discriminate.
        -- destruct (CA eq_refl f1 cs1 _ Hin Hin1) as [W _]. destruct a1; try discriminate. inversion Hdeep1.
    + inversion H as [f0 cs0 a Hin E1 E2|f0 cs0 a b Hin Hdeep E1 E2]; subst.
      * eapply (deep_marker _ (TApp FC cs) 1 (Nat.lt_succ_diag_r _)); [lia|exact (V _ Hin)|left; reflexivity].
      * eapply (deep_marker _ a 1 (Nat.lt_succ_diag_r _)); [lia|exact (V _ Hin)|right; exact Hdeep].
  - intros [H1 H2]. rewrite validate_app. cbn [andb negb]. apply forallb_forall. intros a Ha.
    destruct (is_C f) eqn:F.
    + destruct f; try discriminate. destruct a as [s| |g cs]; try reflexivity.
      rewrite validate_app. cbn. apply forallb_forall. intros b Hb.
      assert (Sb := H2 eq_refl g cs b Ha Hb). rewrite Sb. cbn [negb andb].
      destruct b; try discriminate. cbn. destruct g; cbn; try reflexivity.
      exfalso. assert (E := H1 cs (inside_arg FC args _ Ha)). subst. contradiction.
    + apply (no_marker_valid _ a 1 (Nat.lt_succ_diag_r _)). intros cs [->|Hin]; apply H1; [constructor; assumption|eapply inside_deeper; eassumption].
Qed.

(* ---------- tokens ---------- *)

Lemma mem_in s l : mem s l = true <-> In s l.
Proof.
  unfold mem. rewrite existsb_exists. split.
  - intros [x [H E]]. apply String.eqb_eq in E. subst. exact H.
  - intros H. exists s. split; [exact H|apply String.eqb_refl].
Qed.

Lemma mem_not s l : mem s l = false <-> ~ In s l.
Proof. rewrite <- mem_in. destruct (mem s l); split; congruence. Qed.

(** Tokens that a formula may contain. *)
Definition allowed_token (k : tok) : Prop :=
  match k with
  | TokName s => ~ In s (class_names ++ ["Intercept"%string])
  | TokOp s => In s operations
  | TokNumber _ | TokNewline | TokEnd => True
  | TokOther _ | TokQuoted _ => False
  end.

(** How an accepted token reaches the interpreter: variables as quoted symbols, the rest unchanged. *)
Definition render (k : tok) : list tok :=
  match k with
  | TokName s => if mem s function_names then [k]
                 else [TokName "Symbol"; TokOp "("; TokQuoted s; TokOp ")"]
  | _ => [k]
  end.

Lemma transform_sound : forall ts c out, transform_tokens ts c = Some out ->
  (forall k, In k ts -> allowed_token k) /\
  (c = true -> forall post, ts <> TokOp "(" :: post) /\
  (forall pre v post, ts = pre ++ TokName v :: TokOp "(" :: post -> In v function_names) /\
  out = flat_map render ts.
Proof.
  induction ts as [|k ts IH]; intros c out H.
  - cbn in H. injection H as <-. repeat split; [intros k []|discriminate|].
    intros pre v post E. destruct pre; discriminate.
  - assert (G : forall c' r, transform_tokens ts c' = Some r -> allowed_token k ->
               (c = true -> k <> TokOp "(") ->
               (forall v, k = TokName v -> ~ In v function_names -> c' = true) -> out = render k ++ r ->
               (forall k', In k' (k :: ts) -> allowed_token k') /\
               (c = true -> forall post, k :: ts <> TokOp "(" :: post) /\
               (forall pre v post, k :: ts = pre ++ TokName v :: TokOp "(" :: post -> In v function_names) /\
               out = flat_map render (k :: ts)).
    { intros c' r Hr A B C D. destruct (IH c' r Hr) as [I1 [I2 [I3 I4]]]. repeat split.
      - intros k' [<-|Hk]; auto.
      - intros Hc post E. injection E as E _. exact (B Hc E).
      - intros pre v post E. destruct pre as [|k0 pre]; cbn [app] in E; injection E as E1 E2.
        + destruct (in_dec string_dec v function_names) as [Hi|Hi]; [exact Hi|].
          exfalso. apply (I2 (C v E1 Hi) post). exact E2.
        + exact (I3 pre v post E2).
      - rewrite D, I4. reflexivity. }
    destruct k as [s|s|s| | |s|s]; cbn [transform_tokens] in H; try discriminate.
    + destruct (mem s function_names) eqn:M.
      * destruct (transform_tokens ts false) as [r|] eqn:R; [|discriminate]. injection H as <-.
        apply (G false r R).
        -- cbn [allowed_token]. apply mem_in in M. cbn in M. repeat destruct M as [<-|M]; try contradiction; cbn; intuition discriminate.
        -- discriminate.
        -- intros v [= <-] N. apply mem_in in M. contradiction.
        -- cbn [render]. rewrite M. reflexivity.
      * destruct (mem s (class_names ++ ["Intercept"%string])) eqn:N; [discriminate|].
        destruct (transform_tokens ts true) as [r|] eqn:R; [|discriminate]. injection H as <-.
        apply (G true r R).
        -- cbn [allowed_token]. apply mem_not in N. exact N.
        -- discriminate.
        -- reflexivity.
        -- cbn [render]. rewrite M. reflexivity.
    + destruct (mem s operations) eqn:M; [|discriminate]. cbn [negb] in H.
      destruct (String.eqb_spec s "(") as [->|Hs]; cbn [andb] in H.
      * destruct c; [discriminate|]. destruct (transform_tokens ts false) as [r|] eqn:R; [|discriminate]. injection H as <-.
        apply (G false r R); [cbn [allowed_token]; apply mem_in; exact M|discriminate|intros v [=]|reflexivity].
      * destruct (transform_tokens ts false) as [r|] eqn:R; [|discriminate]. injection H as <-.
        apply (G false r R); [cbn [allowed_token]; apply mem_in; exact M|intros _ [= E]; contradiction|intros v [=]|reflexivity].
    + destruct (transform_tokens ts false) as [r|] eqn:R; [|discriminate]. injection H as <-.
      apply (G false r R); [exact I|discriminate|intros v [=]|reflexivity].
    + destruct (transform_tokens ts false) as [r|] eqn:R; [|discriminate]. injection H as <-.
      apply (G false r R); [exact I|discriminate|intros v [=]|reflexivity].
    + destruct (transform_tokens ts false) as [r|] eqn:R; [|discriminate]. injection H as <-.
      apply (G false r R); [exact I|discriminate|intros v [=]|reflexivity].
Qed.

Lemma transform_complete : forall ts c,
  (forall k, In k ts -> allowed_token k) ->
  (c = true -> forall post, ts <> TokOp "(" :: post) ->
  (forall pre v post, ts = pre ++ TokName v :: TokOp "(" :: post -> In v function_names) ->
  transform_tokens ts c = Some (flat_map render ts).
Proof.
  induction ts as [|k ts IH]; intros c A B C; [reflexivity|].
  assert (A' : forall k', In k' ts -> allowed_token k') by (intros; apply A; right; assumption).
  assert (C' : forall pre v post, ts = pre ++ TokName v :: TokOp "(" :: post -> In v function_names).
  { intros pre v post E. apply (C (k :: pre) v post). cbn [app]. rewrite E. reflexivity. }
  assert (Ak := A k (or_introl eq_refl)). cbn [flat_map].
  assert (F : transform_tokens ts false = Some (flat_map render ts)) by (apply IH; [exact A'|discriminate|exact C']).
  destruct k as [s|s|s| | |s|s]; cbn [transform_tokens render allowed_token] in *; try contradiction;
    try (rewrite F; reflexivity).
  - destruct (mem s function_names) eqn:M; [rewrite F; reflexivity|].
    apply mem_not in Ak. rewrite Ak.
    rewrite (IH true); [reflexivity|exact A'| |exact C'].
    intros _ post E. apply mem_not in M. apply M. apply (C [] s post). cbn [app]. rewrite E. reflexivity.
  - apply mem_in in Ak. rewrite Ak. cbn [negb].
    destruct (String.eqb_spec s "(") as [->|Hs]; cbn [andb]; [|rewrite F; reflexivity].
    destruct c; [exfalso; apply (B eq_refl ts); reflexivity|]. rewrite F. reflexivity.
Qed.

Lemma transform_iff ts out : transform_tokens ts false = Some out <->
  (forall k, In k ts -> allowed_token k) /\
  (forall pre v post, ts = pre ++ TokName v :: TokOp "(" :: post -> In v function_names) /\
  out = flat_map render ts.
Proof.
  split.
  - intros H. destruct (transform_sound ts false out H) as [A [_ [B C]]]. auto.
  - intros [A [B ->]]. apply transform_complete; [exact A|discriminate|exact B].
Qed.

Lemma render_names : forall ts pre s post, flat_map render ts = pre ++ TokName s :: post ->
  In s function_names \/
  (s = "Symbol"%string /\ exists v post', post = TokOp "(" :: TokQuoted v :: TokOp ")" :: post').
Proof.
  induction ts as [|k ts IH]; intros pre s post E; [destruct pre; discriminate|]. cbn [flat_map] in E.
  destruct k as [n|n|n| | |n|n]; cbn [render] in E;
    try (destruct pre as [|p0 pre]; cbn [app] in E; injection E as E1 E2; [discriminate|exact (IH _ _ _ E2)]).
  destruct (mem n function_names) eqn:M.
  - destruct pre as [|p0 pre]; cbn [app] in E; injection E as E1 E2; [|exact (IH _ _ _ E2)].
    left. apply mem_in. subst. exact M.
  - cbn [app] in E. destruct pre as [|p0 pre]; cbn [app] in E; injection E as E1 E2.
    + right. split; [symmetry; exact E1|]. rewrite <- E2. eauto.
    + destruct pre as [|p1 pre]; cbn [app] in E2; injection E2 as E3 E4; [discriminate|].
      destruct pre as [|p2 pre]; cbn [app] in E4; injection E4 as E5 E6; [discriminate|].
      destruct pre as [|p3 pre]; cbn [app] in E6; injection E6 as E7 E8; [discriminate|].
      exact (IH _ _ _ E8).
Qed.

Lemma transform_names ts out : transform_tokens ts false = Some out ->
  (forall pre s post, out = pre ++ TokName s :: post ->
     In s function_names \/
     (s = "Symbol"%string /\ exists v post', post = TokOp "(" :: TokQuoted v :: TokOp ")" :: post')) /\
  (forall s, In (TokOp s) out -> In s operations) /\
  (forall s, ~ In (TokOther s) out).
Proof.
  intros H. apply transform_iff in H. destruct H as [A [_ ->]]. split; [|split].
  - apply render_names.
  - intros s Hs. apply in_flat_map in Hs. destruct Hs as [k [Hk Hr]]. specialize (A k Hk).
    destruct k as [n|n|n| | |n|n]; cbn [render allowed_token] in *; try contradiction.
    + destruct (mem n function_names); cbn [In] in Hr; intuition (try discriminate).
      all: match goal with Q : TokOp _ = TokOp _ |- _ => injection Q as <- end; cbn; tauto.
    + destruct Hr as [Q|[]]. injection Q as <-. exact A.
    + destruct Hr as [Q|[]]. discriminate.
    + destruct Hr as [Q|[]]. discriminate.
    + destruct Hr as [Q|[]]. discriminate.
  - intros s Hs. apply in_flat_map in Hs. destruct Hs as [k [Hk Hr]]. specialize (A k Hk).
    destruct k as [n|n|n| | |n|n]; cbn [render allowed_token] in *; try contradiction.
    + destruct (mem n function_names); cbn [In] in Hr; intuition discriminate.
    + destruct Hr as [Q|[]]. discriminate.
    + destruct Hr as [Q|[]]. discriminate.
    + destruct Hr as [Q|[]]. discriminate.
    + destruct Hr as [Q|[]]. discriminate.
Qed.

(* ---------- names of stored variables ---------- *)

Lemma stored_names (columns : list expr) (indicators : list (string * string)) (raw : string -> option R) (level_of : string -> string) (name : string) :
  (~ In name (flat_map free columns) -> underlying columns indicators raw level_of name = None) /\
  (In name (flat_map free columns) -> (forall v l, In (v, l) indicators -> full_symbol v l <> name) ->
   underlying columns indicators raw level_of name = raw name).
Proof.
  unfold underlying. destruct (existsb (fun e => existsb (String.eqb name) (free e)) columns) eqn:E.
  - split.
    + intros N. destruct N. apply existsb_exists in E. destruct E as [e [He E]]. apply existsb_exists in E. destruct E as [s [Hs E]].
      apply String.eqb_eq in E. subst s. apply in_flat_map. eauto.
    + intros _ H. destruct (find _ (rev indicators)) as [[v l]|] eqn:F; [|reflexivity].
      apply find_some in F. destruct F as [Hi F]. apply in_rev in Hi. apply String.eqb_eq in F. destruct (H v l Hi F).
  - split; [reflexivity|]. intros Hi. exfalso. apply in_flat_map in Hi. destruct Hi as [e [He Hs]].
    enough (existsb (fun e => existsb (String.eqb name) (free e)) columns = true) by congruence.
    apply existsb_exists. exists e. split; [exact He|]. apply existsb_exists. exists name. split; [exact Hs|apply String.eqb_refl].
Qed.
