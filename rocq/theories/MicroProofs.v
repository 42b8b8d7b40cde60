(** Proofs about micro moments. *)
From Coq Require Import Sorting.Permutation Sorting.Sorted.
From Coq Require Import Reals List Bool Arith ZArith Lia Lra Sorted.
From Verif Require Import Base BasicsModel DemandSpec DemandDeriv PrimModel MicroModel MicroSpec ProgressProofs DiffProofs.
From Verif Require WelfareProofs PrimProofs.
Import ListNotations.
Local Open Scope R_scope.

(** ** Sums over lists *)
Lemma so_ext {A} (l : list A) f g : (forall x, In x l -> f x = g x) -> sum_over l f = sum_over l g.
Proof. induction l as [|a l IH]; intro H; cbn; [reflexivity|]. rewrite H, IH; [reflexivity|intros; apply H; right; assumption|left; reflexivity]. Qed.
Lemma so_app {A} (l k : list A) f : sum_over (l ++ k) f = sum_over l f + sum_over k f.
Proof. induction l as [|a l IH]; cbn; [ring|rewrite IH; ring]. Qed.
Lemma so_map {A B} (g : A -> B) l f : sum_over (map g l) f = sum_over l (fun x => f (g x)).
Proof. induction l as [|a l IH]; cbn; [reflexivity|rewrite IH; reflexivity]. Qed.
Lemma so_concat {A} (l : list (list A)) f : sum_over (concat l) f = sum_over l (fun c => sum_over c f).
Proof. induction l as [|a l IH]; cbn; [reflexivity|rewrite so_app, IH; reflexivity]. Qed.
Lemma so_flat_map {A B} (g : A -> list B) l f : sum_over (flat_map g l) f = sum_over l (fun x => sum_over (g x) f).
Proof. induction l as [|a l IH]; cbn; [reflexivity|rewrite so_app, IH; reflexivity]. Qed.
Lemma so_plus {A} (l : list A) f g : sum_over l (fun x => f x + g x) = sum_over l f + sum_over l g.
Proof. induction l as [|a l IH]; cbn; [ring|rewrite IH; ring]. Qed.
Lemma so_minus {A} (l : list A) f g : sum_over l (fun x => f x - g x) = sum_over l f - sum_over l g.
Proof. induction l as [|a l IH]; cbn; [ring|rewrite IH; ring]. Qed.
Lemma so_scal {A} (l : list A) c f : sum_over l (fun x => c * f x) = c * sum_over l f.
Proof. induction l as [|a l IH]; cbn; [ring|rewrite IH; ring]. Qed.
Lemma so_scal_r {A} (l : list A) c f : sum_over l (fun x => f x * c) = sum_over l f * c.
Proof. induction l as [|a l IH]; cbn; [ring|rewrite IH; ring]. Qed.
Lemma so_zero {A} (l : list A) f : (forall x, In x l -> f x = 0) -> sum_over l f = 0.
Proof. intro H. rewrite (so_ext l f (fun _ => 0)) by exact H. clear H. induction l as [|a l IH]; cbn; [reflexivity|rewrite IH; ring]. Qed.
Lemma so_nonneg {A} (l : list A) f : (forall x, In x l -> 0 <= f x) -> 0 <= sum_over l f.
Proof. induction l as [|a l IH]; intro H; cbn; [lra|]. assert (A1 := H a (or_introl eq_refl)). assert (A2 := IH (fun x Hx => H x (or_intror Hx))). lra. Qed.
Lemma so_seq n f : sum_over (seq 0 n) f = sumn n f.
Proof. induction n as [|n IH]; [reflexivity|]. rewrite seq_S, so_app, IH. cbn. ring. Qed.
Lemma so_deriv {A} (l : list A) (f : A -> R -> R) (d : A -> R) t :
  (forall a, In a l -> derivable_pt_lim (f a) t (d a)) -> derivable_pt_lim (fun x => sum_over l (fun a => f a x)) t (sum_over l d).
Proof.
  induction l as [|a l IH]; intro H; cbn; [apply derivable_pt_lim_const|].
  apply (deriv_plus (f a) (fun x => sum_over l (fun a => f a x))); [apply H; left; reflexivity|apply IH; intros; apply H; right; assumption].
Qed.

(** ** Chunks *)
Lemma split_concat sizes start : concat (split_from sizes start) = seq start (list_sum sizes).
Proof.
  revert start. induction sizes as [|n sizes IH]; intro start; [reflexivity|]. cbn [split_from concat].
  rewrite IH. change (list_sum (n :: sizes)) with (n + list_sum sizes)%nat. rewrite seq_app. reflexivity.
Qed.
Lemma list_sum_repeat x n : list_sum (repeat x n) = (n * x)%nat.
Proof. induction n as [|n IH]; [reflexivity|]. cbn [repeat]. change (list_sum (x :: repeat x n)) with (x + list_sum (repeat x n))%nat. rewrite IH. lia. Qed.
Lemma array_split_concat I n : (1 <= n)%nat -> concat (array_split I n) = seq 0 I.
Proof.
  intro H. unfold array_split. rewrite split_concat. f_equal. rewrite list_sum_app, !list_sum_repeat.
  assert (D := Nat.div_mod I n ltac:(lia)). assert (M := Nat.mod_upper_bound I n ltac:(lia)). nia.
Qed.
Lemma concat_filter {A} (l : list (list A)) : concat (filter (fun c => negb (Nat.eqb (List.length c) 0)) l) = concat l.
Proof. induction l as [|[|a c] l IH]; cbn; [reflexivity|exact IH|rewrite IH; reflexivity]. Qed.
Lemma chunks_concat I n : concat (micro_chunks I n) = seq 0 I.
Proof.
  unfold micro_chunks. destruct (Nat.ltb_spec 1 n) as [H|H]; [|cbn; apply app_nil_r]. rewrite concat_filter. apply array_split_concat. lia.
Qed.
Lemma chunks_sum s m n f : sum_over (micro_chunks (m_I m) n) (chunk_sum s m f) = integral s (m_J m) (m_I m) f.
Proof. unfold chunk_sum. rewrite <- so_concat, chunks_concat, so_seq. reflexivity. Qed.
Lemma chunk_in I n c i : In c (micro_chunks I n) -> In i c -> (i < I)%nat.
Proof.
  intros Hc Hi. assert (In i (seq 0 I)) by (rewrite <- (chunks_concat I n); apply in_concat; exists c; split; assumption).
  apply in_seq in H. lia.
Qed.
Lemma kept_all m n : kept_weights m n = map (dataset_weight m) (seq 0 (m_I m)).
Proof. unfold kept_weights. rewrite flat_map_concat_map, <- concat_map, chunks_concat. reflexivity. Qed.

(** ** Probabilities of choices *)
Section Logit.
  Variables (J : nat) (V : nat -> R).
  Notation total := (1 + sumn J (fun k => exp (V k))).
  Lemma exp_sum_nonneg (inc : nat -> bool) : 0 <= sumn J (fun k => if inc k then exp (V k) else 0).
  Proof. apply sumn_nonneg. intros k _. destruct (inc k); [left; apply exp_pos|lra]. Qed.
  Lemma total_pos : 0 < total.
  Proof. assert (X := exp_sum_nonneg (fun _ => true)). cbn in X. lra. Qed.
  Lemma logit_all j : logit J all_goods true V j = exp (V j) / total.
  Proof. reflexivity. Qed.
  Lemma logit_sum (inc : nat -> bool) : sumn J (fun k => if inc k then logit J all_goods true V k else 0) = sumn J (fun k => if inc k then exp (V k) else 0) / total.
  Proof. unfold Rdiv. rewrite <- sumn_scal_r. apply sumn_ext. intros k _. rewrite logit_all. destruct (inc k); unfold Rdiv; ring. Qed.
  Lemma logit_total : sumn J (logit J all_goods true V) = sumn J (fun k => exp (V k)) / total.
  Proof. exact (logit_sum (fun _ => true)). Qed.
  Lemma logit_outside : 1 - sumn J (logit J all_goods true V) = 1 / total.
  Proof. rewrite logit_total. assert (X := total_pos). field. lra. Qed.
  Lemma split_total (inc : nat -> bool) : total = 1 + sumn J (fun k => if inc k then exp (V k) else 0) + sumn J (fun k => if inc k then 0 else exp (V k)).
  Proof.
    rewrite Rplus_assoc, <- sumn_plus. f_equal. apply sumn_ext. intros k _. destruct (inc k); ring.
  Qed.

  Variable same : nat -> nat -> bool.
  Notation p := (logit J all_goods true V).
  Notation left_ j := (1 + sumn J (fun k => if negb (same j k) then exp (V k) else 0)).
  Lemma left_pos j : 0 < left_ j.
  Proof. assert (X := exp_sum_nonneg (fun k => negb (same j k))). lra. Qed.
  Lemma removed_form j : 1 - removed J same p j = left_ j / total.
  Proof.
    unfold removed. rewrite (logit_sum (same j)). assert (X := total_pos).
    rewrite (split_total (same j)). rewrite (split_total (same j)) in X.
    rewrite (sumn_ext J (fun k => if negb (same j k) then exp (V k) else 0) (fun k => if same j k then 0 else exp (V k))) by (intros k _; destruct (same j k); reflexivity).
    field. lra.
  Qed.
  Lemma eliminated_form j k : eliminated J same p j k = logit J (fun l => negb (same j l)) true V k.
  Proof.
    assert (E : logit J (fun l => negb (same j l)) true V k = if negb (same j k) then exp (V k) / left_ j else 0) by reflexivity.
    rewrite E. unfold eliminated. destruct (same j k); cbn [negb]; [reflexivity|]. rewrite removed_form, logit_all.
    assert (X := total_pos). assert (Y := left_pos j). field. split; lra.
  Qed.
End Logit.

Lemma logit_set_total J inc V : sumn J (logit J inc true V) =
  sumn J (fun k => if inc k then exp (V k) else 0) / (1 + sumn J (fun k => if inc k then exp (V k) else 0)).
Proof.
  unfold Rdiv. rewrite <- sumn_scal_r. apply sumn_ext. intros k _. unfold logit. cbn [indR]. destruct (inc k); unfold Rdiv; ring.
Qed.
Lemma eliminated_outside_form J V same j : eliminated_outside J same (logit J all_goods true V) j
  = 1 / (1 + sumn J (fun k => if negb (same j k) then exp (V k) else 0)).
Proof.
  unfold eliminated_outside. rewrite (sumn_ext J _ (logit J (fun l => negb (same j l)) true V)) by (intros; apply eliminated_form).
  rewrite logit_set_total. assert (Y := left_pos J V same j). field. lra.
Qed.
Lemma total_alone J V j : (j < J)%nat -> 1 + sumn J (fun k => exp (V k)) = 1 + sumn J (fun k => if negb (Nat.eqb j k) then exp (V k) else 0) + exp (V j).
Proof.
  intro H. rewrite (split_total J V (fun k => negb (Nat.eqb j k))). f_equal.
  rewrite (sumn_ext J _ (fun k => if Nat.eqb k j then exp (V k) else 0)).
  - apply (sumn_delta J j (fun k => exp (V k))). exact H.
  - intros k _. rewrite Nat.eqb_sym. destruct (Nat.eqb k j); reflexivity.
Qed.

Lemma probability_documented J V c : (forall a, c = Single a -> in_range J a) -> (forall a b, c = Pair a b -> in_range J a /\ in_range J b) ->
  probability J product_alone (logit J all_goods true V) c = documented J product_alone V c.
Proof.
  intros H1 H2. assert (T := total_pos J V). destruct c as [[j|]|[j|] [k|]]; cbn [probability documented].
  - reflexivity.
  - unfold outside. rewrite logit_outside. reflexivity.
  - destruct (H2 _ _ eq_refl) as [Hj Hk]. cbn [in_range] in *. unfold joint. cbn [chosen]. rewrite eliminated_form.
    assert (E : logit J (fun l => negb (product_alone j l)) true V k = if negb (Nat.eqb j k) then exp (V k) / (1 + sumn J (fun k => if negb (Nat.eqb j k) then exp (V k) else 0)) else 0) by reflexivity.
    rewrite E. destruct (Nat.eqb_spec j k) as [->|N]; cbn [negb]; [ring|]. rewrite !logit_all.
    assert (Y := left_pos J V Nat.eqb j). rewrite (total_alone J V j Hj) in *. field. split; lra.
  - destruct (H2 _ _ eq_refl) as [Hj _]. cbn [in_range] in *. unfold joint. cbn [chosen]. rewrite eliminated_outside_form. unfold outside. rewrite logit_outside, logit_all.
    assert (Y := left_pos J V Nat.eqb j). change (product_alone j) with (Nat.eqb j). rewrite (total_alone J V j Hj) in *. field. split; lra.
  - destruct (H2 _ _ eq_refl) as [_ Hk]. cbn [in_range] in *. unfold joint. cbn [chosen]. unfold outside_eliminated. rewrite logit_total, logit_all.
    assert (E : logit J all_goods false V k = exp (V k) / (0 + sumn J (fun k => exp (V k)))) by reflexivity. rewrite E.
    change (sumn J (fun k0 => if all_goods k0 then exp (V k0) else 0)) with (sumn J (fun k => exp (V k))).
    assert (Z : 0 < sumn J (fun k => exp (V k))).
    { eapply Rlt_le_trans; [apply (exp_pos (V k))|]. apply (sumn_ge_term J (fun k => exp (V k)) k); [|exact Hk]. intros; left; apply exp_pos. }
    field. split; lra.
  - unfold joint. cbn [chosen]. ring.
Qed.

(** ** Joint distribution of first and second choices *)
Section Joint.
  Variables (J : nat) (p : nat -> R).
  Hypothesis P : proper J p.
  Notation prob := (probability J product_alone p).
  Lemma p_pos j : (j < J)%nat -> 0 < p j.
  Proof. intro H. exact (proj1 P j H). Qed.
  Lemma p_below j : (j < J)%nat -> p j < 1.
  Proof.
    intro H. eapply Rle_lt_trans; [|exact (proj2 P)]. apply (sumn_ge_term J p j); [|exact H]. intros k Hk. left. apply p_pos, Hk.
  Qed.
  Lemma removed_alone j : (j < J)%nat -> removed J product_alone p j = p j.
  Proof.
    intro H. unfold removed. rewrite (sumn_ext J _ (fun l => if Nat.eqb l j then p l else 0)).
    - apply (sumn_delta J j p H).
    - intros l _. unfold product_alone. rewrite Nat.eqb_sym. reflexivity.
  Qed.
  Lemma eliminated_sum j : (j < J)%nat -> sumn J (eliminated J product_alone p j) = (sumn J p - p j) / (1 - p j).
  Proof.
    intro H. rewrite (sumn_ext J _ (fun k => (p k - (if Nat.eqb k j then p k else 0)) * / (1 - p j))).
    - rewrite sumn_scal_r, sumn_minus, (sumn_delta J j p H). reflexivity.
    - intros k _. unfold eliminated. rewrite removed_alone by exact H. unfold product_alone. rewrite Nat.eqb_sym. destruct (Nat.eqb k j); [ring|unfold Rdiv; ring].
  Qed.
  Lemma pair_inside j k : (j < J)%nat -> j <> k -> prob (Pair (Some j) (Some k)) = p j * p k / (1 - p j).
  Proof.
    intros Hj N. cbn [probability]. unfold eliminated. rewrite (removed_alone j Hj). unfold product_alone.
    destruct (Nat.eqb_spec j k); [contradiction|]. assert (X := p_below j Hj). field. lra.
  Qed.
  Lemma pair_outside j : (j < J)%nat -> prob (Pair (Some j) None) = p j * outside J p / (1 - p j).
  Proof.
    intros Hj. cbn [probability]. unfold eliminated_outside, outside. rewrite (eliminated_sum j Hj). assert (X := p_below j Hj). field. lra.
  Qed.
  Lemma sum_p_pos k : (k < J)%nat -> 0 < sumn J p.
  Proof. intro H. eapply Rlt_le_trans; [apply (p_pos k H)|]. apply (sumn_ge_term J p k); [|exact H]. intros; left; apply p_pos; assumption. Qed.
  Lemma outside_inside k : (k < J)%nat -> prob (Pair None (Some k)) = outside J p * p k / sumn J p.
  Proof. intro H. cbn [probability]. unfold outside_eliminated, outside. assert (X := sum_p_pos k H). field. lra. Qed.
  Lemma outside_pos : 0 < outside J p.
  Proof. unfold outside. assert (X := proj2 P). lra. Qed.

  Lemma cell_nonneg c : (forall a, c = Single a -> in_range J a) -> (forall a b, c = Pair a b -> in_range J a /\ in_range J b) -> 0 <= prob c.
  Proof.
    intros H1 H2. assert (O := outside_pos). destruct c as [[j|]|[j|] [k|]].
    - left. apply p_pos. exact (H1 _ eq_refl).
    - cbn [probability]. lra.
    - destruct (H2 _ _ eq_refl) as [Hj Hk]. cbn [in_range] in *. destruct (Nat.eq_dec j k) as [->|N]; [cbn [probability]; rewrite Nat.eqb_refl; lra|].
      rewrite pair_inside by assumption. assert (A := p_pos j Hj). assert (B := p_pos k Hk). assert (C := p_below j Hj).
      left. apply Rdiv_lt_0_compat; [apply Rmult_lt_0_compat; assumption|lra].
    - destruct (H2 _ _ eq_refl) as [Hj _]. cbn [in_range] in *. rewrite pair_outside by assumption. assert (A := p_pos j Hj). assert (C := p_below j Hj).
      left. apply Rdiv_lt_0_compat; [apply Rmult_lt_0_compat; assumption|lra].
    - destruct (H2 _ _ eq_refl) as [_ Hk]. cbn [in_range] in *. rewrite outside_inside by assumption. assert (A := p_pos k Hk). assert (C := sum_p_pos k Hk).
      left. apply Rdiv_lt_0_compat; [apply Rmult_lt_0_compat; assumption|lra].
    - cbn [probability]. lra.
  Qed.
  Lemma second_sum a : in_range J a -> (0 < J)%nat -> sum_over (all_options J) (fun b => prob (Pair a b)) = prob (Single a).
  Proof.
    intros H HJ. unfold all_options. cbn [sum_over]. rewrite so_map, so_seq. destruct a as [j|]; cbn [in_range] in H.
    - rewrite pair_outside by exact H.
      rewrite (sumn_ext J _ (fun k => (p k - (if Nat.eqb k j then p k else 0)) * (p j / (1 - p j)))).
      + rewrite sumn_scal_r, sumn_minus, (sumn_delta J j p H). cbn [probability]. unfold outside. assert (X := p_below j H). field. lra.
      + intros k Hk. destruct (Nat.eqb_spec k j) as [->|N]; [cbn [probability]; rewrite Nat.eqb_refl; unfold Rdiv; ring|].
        rewrite pair_inside by (try assumption; congruence). unfold Rdiv. ring.
    - rewrite (sumn_ext J _ (fun k => p k * (outside J p / sumn J p))).
      + rewrite sumn_scal_r. cbn [probability]. assert (X := sum_p_pos 0%nat HJ). field. lra.
      + intros k Hk. rewrite outside_inside by exact Hk. unfold Rdiv. ring.
  Qed.
  Lemma second_zero a : prob (Pair a a) = 0.
  Proof. destruct a as [j|]; cbn [probability]; [rewrite Nat.eqb_refl|]; reflexivity. Qed.
End Joint.

(** ** Cells are in range *)
Lemma options_range o J a : In a (options_of o J) -> in_range J a.
Proof.
  intro H. unfold options_of in H. apply in_app_or in H. destruct H as [H|H].
  - destruct o; [destruct H as [<-|[]]; exact I|destruct H].
  - apply in_map_iff in H. destruct H as (j & <- & Hj). apply in_seq in Hj. cbn. lia.
Qed.
Lemma cells_range s J c : In c (cells s J) ->
  (forall a, c = Single a -> in_range J a) /\ (forall a b, c = Pair a b -> in_range J a /\ in_range J b).
Proof.
  intro H. destruct s as [o|o1 o2]; cbn [cells] in H.
  - apply in_map_iff in H. destruct H as (a & <- & Ha). split; [intros a' E; injection E as <-; apply (options_range o), Ha|discriminate].
  - apply in_flat_map in H. destruct H as (a & Ha & H). apply in_map_iff in H. destruct H as (b & <- & Hb).
    split; [discriminate|]. intros a' b' E. injection E as <- <-. split; [apply (options_range o1), Ha|apply (options_range o2), Hb].
Qed.

(** ** Tangents *)
Lemma deriv_div (f g : R -> R) t d e : derivable_pt_lim f t d -> derivable_pt_lim g t e -> g t <> 0 ->
  derivable_pt_lim (fun x => f x / g x) t ((d - f t / g t * e) / g t).
Proof.
  intros F G N. eapply deriv_eq; [exact (derivable_pt_lim_div f g t d e F G N)|]. unfold Rsqr. field. exact N.
Qed.
Lemma deriv_opp (f : R -> R) t d : derivable_pt_lim f t d -> derivable_pt_lim (fun x => - f x) t (- d).
Proof. intro F. exact (derivable_pt_lim_opp f t d F). Qed.
Lemma deriv_local (f g : R -> R) t d r : 0 < r -> (forall x, Rabs (x - t) < r -> f x = g x) -> derivable_pt_lim f t d -> derivable_pt_lim g t d.
Proof.
  intros Hr E F eps He. destruct (F eps He) as [del H]. assert (M : 0 < Rmin del r) by (apply Rmin_glb_lt; [apply cond_pos|exact Hr]).
  exists (mkposreal _ M). cbn. intros h Hh Hlt. assert (L1 := Rmin_l del r). assert (L2 := Rmin_r del r).
  rewrite <- !E; [apply H; [exact Hh|lra]| |].
  - rewrite Rminus_diag_eq, Rabs_R0 by reflexivity. exact Hr.
  - replace (t + h - t) with h by ring. lra.
Qed.

Section Tangent.
  Variables (J : nat) (same : nat -> nat -> bool) (p : R -> nat -> R) (dp : nat -> R) (t : R).
  Hypothesis smooth : forall j, (j < J)%nat -> derivable_pt_lim (fun x => p x j) t (dp j).
  Hypothesis nonzero : forall j, (j < J)%nat -> p t j <> 0.
  Lemma sum_deriv : derivable_pt_lim (fun x => sumn J (p x)) t (sumn J dp).
  Proof. apply (deriv_sumn J (fun j x => p x j)). exact smooth. Qed.
  Lemma removed_deriv j : derivable_pt_lim (fun x => removed J same (p x) j) t (removed_tangent J same dp j).
  Proof.
    unfold removed, removed_tangent. apply (deriv_sumn J (fun l x => if same j l then p x l else 0)). intros l Hl.
    destruct (same j l); [apply smooth, Hl|apply derivable_pt_lim_const].
  Qed.
  Lemma eliminated_deriv j k : (k < J)%nat -> 1 - removed J same (p t) j <> 0 ->
    derivable_pt_lim (fun x => eliminated J same (p x) j k) t (eliminated_tangent J same (p t) dp j k).
  Proof.
    intros Hk N. unfold eliminated_tangent, eliminated, ratio. destruct (Req_EM_T (p t k) 0) as [E|E]; [exfalso; exact (nonzero k Hk E)|].
    destruct (same j k).
    - eapply deriv_eq; [apply derivable_pt_lim_const|]. unfold Rdiv. ring.
    - eapply deriv_eq.
      + apply (deriv_div (fun x => p x k) (fun x => 1 - removed J same (p x) j)); [apply smooth, Hk| |exact N].
        apply (deriv_minus (fun _ => 1) (fun x => removed J same (p x) j)); [apply derivable_pt_lim_const|apply removed_deriv].
      + cbv beta. field. split; assumption.
  Qed.
  Lemma outside_eliminated_deriv k : (k < J)%nat -> sumn J (p t) <> 0 ->
    derivable_pt_lim (fun x => outside_eliminated J (p x) k) t (outside_eliminated_tangent J (p t) dp k).
  Proof.
    intros Hk N. unfold outside_eliminated_tangent, outside_eliminated, ratio. destruct (Req_EM_T (p t k) 0) as [E|E]; [exfalso; exact (nonzero k Hk E)|].
    eapply deriv_eq; [apply (deriv_div (fun x => p x k) (fun x => sumn J (p x))); [apply smooth, Hk|apply sum_deriv|exact N]|].
    cbv beta. field. split; assumption.
  Qed.
  Lemma tangent_deriv c : (forall a, c = Single a -> in_range J a) -> (forall a b, c = Pair a b -> in_range J a /\ in_range J b) ->
    (forall j, (j < J)%nat -> 1 - removed J same (p t) j <> 0) -> ((0 < J)%nat -> sumn J (p t) <> 0) ->
    derivable_pt_lim (fun x => probability J same (p x) c) t (tangent J same (p t) dp c).
  Proof.
    intros H1 H2 N S. assert (O : derivable_pt_lim (fun x => 1 - sumn J (p x)) t (- sumn J dp)).
    { eapply deriv_eq; [apply (deriv_minus (fun _ => 1) (fun x => sumn J (p x))); [apply derivable_pt_lim_const|apply sum_deriv]|ring]. }
    destruct c as [[j|]|[j|] [k|]]; cbn [probability tangent].
    - apply smooth. exact (H1 _ eq_refl).
    - exact O.
    - destruct (H2 _ _ eq_refl) as [Hj Hk]. destruct (Nat.eqb j k); [apply derivable_pt_lim_const|].
      apply (deriv_minus (fun x => eliminated J same (p x) j k) (fun x => p x k)); [apply eliminated_deriv; [exact Hk|apply N, Hj]|apply smooth, Hk].
    - destruct (H2 _ _ eq_refl) as [Hj _].
      apply (deriv_minus (fun x => eliminated_outside J same (p x) j) (fun x => outside J (p x))); [|exact O].
      unfold eliminated_outside. eapply deriv_eq; [apply (deriv_minus (fun _ => 1) (fun x => sumn J (eliminated J same (p x) j)))|].
      + apply derivable_pt_lim_const.
      + apply (deriv_sumn J (fun k x => eliminated J same (p x) j k)). intros k Hk. apply eliminated_deriv; [exact Hk|apply N, Hj].
      + ring_simplify. rewrite (sumn_ext J _ (eliminated_tangent J same (p t) dp j)) by reflexivity. ring.
    - destruct (H2 _ _ eq_refl) as [_ Hk].
      apply (deriv_plus (fun x => - p x k) (fun x => outside_eliminated J (p x) k)); [apply deriv_opp, smooth, Hk|].
      apply outside_eliminated_deriv; [exact Hk|apply S; cbn in Hk; lia].
    - apply derivable_pt_lim_const.
  Qed.
End Tangent.

(** Tangents of second choices sum to those of first choices. *)
Lemma tangent_second_sum J p dp a : proper J p -> in_range J a -> (0 < J)%nat ->
  sum_over (all_options J) (fun b => tangent J product_alone p dp (Pair a b)) = tangent J product_alone p dp (Single a).
Proof.
  intros P H HJ. unfold all_options. cbn [sum_over]. rewrite so_map, so_seq. destruct a as [j|]; cbn [tangent in_range] in *.
  - rewrite (sumn_ext J (fun k => if Nat.eqb j k then 0 else eliminated_tangent J product_alone p dp j k - dp k)
      (fun k => eliminated_tangent J product_alone p dp j k - dp k + (if Nat.eqb k j then dp k else 0))).
    + rewrite sumn_plus, sumn_minus, (sumn_delta J j dp H). ring.
    + intros k Hk. rewrite (Nat.eqb_sym k j). destruct (Nat.eqb_spec j k) as [->|N]; [|ring].
      unfold eliminated_tangent, eliminated, product_alone, ratio. rewrite Nat.eqb_refl. destruct (Req_EM_T (p k) 0); unfold Rdiv; ring.
  - assert (S := sum_p_pos J p P 0%nat HJ).
    rewrite sumn_plus, sumn_opp.
    assert (Z : sumn J (outside_eliminated_tangent J p dp) = 0).
    { rewrite (sumn_ext J _ (fun k => dp k * / sumn J p - p k * (sumn J dp * / sumn J p * / sumn J p))).
      - rewrite sumn_minus, !sumn_scal_r. field. lra.
      - intros k Hk. unfold outside_eliminated_tangent, outside_eliminated, ratio. destruct (Req_EM_T (p k) 0) as [E|E].
        + exfalso. assert (X := p_pos J p P k Hk). lra.
        + field. split; [lra|exact E]. }
    rewrite Z. ring.
Qed.

(** ** Contributions of a market *)
Lemma truncate_nonneg x : 0 <= x -> truncate x = x.
Proof. intro H. unfold truncate. destruct (Rlt_dec x 0); [lra|reflexivity]. Qed.

Lemma reqb_spec x y : reqb x y = true <-> x = y.
Proof. unfold reqb. destruct (Req_EM_T x y); split; intro; try assumption; try reflexivity; try discriminate; contradiction. Qed.

Lemma probability_same J same same' p c : (forall j k, same j k = same' j k) -> probability J same p c = probability J same' p c.
Proof.
  intro H. assert (E : forall j k, eliminated J same p j k = eliminated J same' p j k).
  { intros j k. unfold eliminated, removed. rewrite H. rewrite (sumn_ext J (fun l => if same j l then p l else 0) (fun l => if same' j l then p l else 0)) by (intros; rewrite H; reflexivity). reflexivity. }
  destruct c as [[j|]|[j|] [k|]]; cbn [probability]; try reflexivity.
  - rewrite E. reflexivity.
  - unfold eliminated_outside. rewrite (sumn_ext J _ (eliminated J same' p j)) by (intros; apply E). reflexivity.
Qed.
Lemma tangent_same J same same' p dp c : (forall j k, same j k = same' j k) -> tangent J same p dp c = tangent J same' p dp c.
Proof.
  intro H. assert (E : forall j k, eliminated_tangent J same p dp j k = eliminated_tangent J same' p dp j k).
  { intros j k. unfold eliminated_tangent, eliminated, removed, removed_tangent. rewrite H.
    rewrite (sumn_ext J (fun l => if same j l then p l else 0) (fun l => if same' j l then p l else 0)) by (intros; rewrite H; reflexivity).
    rewrite (sumn_ext J (fun l => if same j l then dp l else 0) (fun l => if same' j l then dp l else 0)) by (intros; rewrite H; reflexivity). reflexivity. }
  destruct c as [[j|]|[j|] [k|]]; cbn [tangent]; try reflexivity.
  - rewrite E. reflexivity.
  - rewrite (sumn_ext J _ (eliminated_tangent J same' p dp j)) by (intros; apply E). reflexivity.
Qed.

Section Contribution.
  Variables (t : R) (d : path).
  Hypothesis S : smooth_path t d.
  Notation s := (fst (fst d)).
  Notation m0 := (snd (fst d)).
  Notation m x := (with_p m0 (snd d x)).

  Lemma weight_form x i c : (forall j k, m_same m0 j k = Nat.eqb j k) -> 0 <= m_agent_weight m0 i -> 0 <= m_weight m0 i c ->
    proper (m_J m0) (snd d x i) -> In c (cells s (m_J m0)) ->
    dataset_weight (m x) i c = m_weight m0 i c * m_agent_weight m0 i * probability (m_J m0) product_alone (snd d x i) c.
  Proof.
    intros E A W P C. unfold dataset_weight. cbn [with_p m_J m_same m_agent_weight m_p m_weight].
    rewrite (probability_same _ _ product_alone) by exact E. apply truncate_nonneg. destruct (cells_range _ _ _ C) as [C1 C2].
    apply Rmult_le_pos; [apply Rmult_le_pos; assumption|apply cell_nonneg; assumption].
  Qed.
  Lemma weight_deriv i c : (i < m_I m0)%nat -> In c (cells s (m_J m0)) ->
    derivable_pt_lim (fun x => dataset_weight (m x) i c) t (weight_tangent (m t) i c).
  Proof.
    intros Hi C. destruct S as [E A W [r [Hr P]] D _]. destruct (cells_range _ _ _ C) as [C1 C2].
    apply (deriv_local (fun x => m_weight m0 i c * m_agent_weight m0 i * probability (m_J m0) product_alone (snd d x i) c) _ t _ r Hr).
    - intros x Hx. symmetry. apply weight_form; [exact E|apply A, Hi|apply W|apply P; assumption|exact C].
    - unfold weight_tangent. cbn [with_p m_J m_same m_agent_weight m_p m_weight m_dp]. rewrite (tangent_same _ _ product_alone) by exact E.
      assert (Pt : proper (m_J m0) (snd d t i)) by (apply P; [rewrite Rminus_diag_eq, Rabs_R0 by reflexivity; exact Hr|exact Hi]).
      apply (deriv_scal (fun x => probability (m_J m0) product_alone (snd d x i) c)).
      apply (tangent_deriv (m_J m0) product_alone (fun x => snd d x i)).
      + intros j Hj. apply D; assumption.
      + intros j Hj. assert (X := p_pos _ _ Pt j Hj). lra.
      + exact C1.
      + exact C2.
      + intros j Hj. rewrite removed_alone by exact Hj. assert (X := p_below _ _ Pt j Hj). lra.
      + intro HJ. assert (X := sum_p_pos _ _ Pt 0%nat HJ). lra.
  Qed.
  Lemma integral_deriv (f : nat -> cell -> R -> R) g : (forall i c, (i < m_I m0)%nat -> In c (cells s (m_J m0)) -> derivable_pt_lim (f i c) t (g i c)) ->
    derivable_pt_lim (fun x => integral s (m_J m0) (m_I m0) (fun i c => f i c x)) t (integral s (m_J m0) (m_I m0) g).
  Proof.
    intro H. unfold integral. apply (deriv_sumn (m_I m0) (fun i x => sum_over (cells s (m_J m0)) (fun c => f i c x))). intros i Hi.
    apply (so_deriv (cells s (m_J m0)) (fun c => f i c)). intros c C. apply H; assumption.
  Qed.
  Lemma numerator_part chunks part : derivable_pt_lim (fun x => part_numerator s (m x) chunks part) t (part_numerator_jacobian s (m t) chunks part).
  Proof.
    unfold part_numerator, part_numerator_jacobian. rewrite chunks_sum.
    apply (dlim_ext (fun x => integral s (m_J m0) (m_I m0) (fun i c => dataset_weight (m x) i c * m_value m0 part i c))).
    - intro x. rewrite chunks_sum. reflexivity.
    - apply (integral_deriv (fun i c x => dataset_weight (m x) i c * m_value m0 part i c)). intros i c Hi C.
      eapply deriv_eq; [apply (deriv_mult (fun x => dataset_weight (m x) i c) (fun _ => m_value m0 part i c)); [apply weight_deriv; assumption|apply derivable_pt_lim_const]|].
      cbn [with_p m_value]. ring.
  Qed.
  Lemma denominator_sum chunks : derivable_pt_lim (fun x => part_denominator s (m x) chunks) t (integral s (m_J m0) (m_I m0) (weight_tangent (m t))).
  Proof.
    unfold part_denominator. apply (dlim_ext (fun x => integral s (m_J m0) (m_I m0) (dataset_weight (m x)))).
    - intro x. rewrite chunks_sum. reflexivity.
    - apply (integral_deriv (fun i c x => dataset_weight (m x) i c)). intros i c Hi C. apply weight_deriv; assumption.
  Qed.

  (** Constant weights: shares do not move. *)
  Lemma single_zero a : in_range (m_J m0) a ->
    sumn (m_I m0) (fun i => m_agent_weight m0 i * tangent (m_J m0) product_alone (snd d t i) (m_dp m0 i) (Single a)) = 0.
  Proof.
    destruct S as [_ _ _ _ _ H]. intro Ha. destruct a as [j|]; cbn [tangent in_range] in *; [apply H, Ha|].
    rewrite (sumn_ext (m_I m0) _ (fun i => - sumn (m_J m0) (fun j => m_agent_weight m0 i * m_dp m0 i j))).
    - rewrite sumn_opp, sumn_swap. rewrite (sumn_ext (m_J m0) _ (fun _ => 0)); [rewrite sumn_zero; ring|]. intros j Hj. apply H, Hj.
    - intros i _. rewrite sumn_scal. ring.
  Qed.
  Lemma constant_spec : (0 < m_I m0)%nat -> constant_denominator s (m t) (seq 0 (m_I m0)) = true ->
    (forall i c, (i < m_I m0)%nat -> In c (cells s (m_J m0)) -> m_weight m0 i c = m_weight m0 0 c) /\
    (forall o1 o2, s = Three o1 o2 -> o2 = true /\ forall i a b, (i < m_I m0)%nat -> In (Pair a b) (cells s (m_J m0)) -> m_weight m0 i (Pair a b) = m_weight m0 i (Pair a None)).
  Proof.
    intros HI H. destruct (m_I m0) as [|n] eqn:EI; [lia|]. cbn [seq constant_denominator] in H.
    apply andb_true_iff in H. destruct H as [H1 H2]. cbn [with_p m_weight m_J] in *.
    rewrite forallb_forall in H1. split.
    - intros i c Hi C. assert (Q := H1 i ltac:(destruct i; [left; reflexivity|right; apply in_seq; lia])). rewrite forallb_forall in Q. apply reqb_spec, Q, C.
    - intros o1 o2 Es. rewrite Es in H2. apply andb_true_iff in H2. destruct H2 as [H2 H3]. split; [exact H2|].
      intros i a b Hi C. rewrite forallb_forall in H3. assert (Q := H3 i ltac:(destruct i; [left; reflexivity|right; apply in_seq; lia])).
      rewrite forallb_forall in Q. rewrite Es in C. apply reqb_spec. exact (Q _ C).
  Qed.
  Lemma constant_zero : constant_denominator s (m t) (seq 0 (m_I m0)) = true -> integral s (m_J m0) (m_I m0) (weight_tangent (m t)) = 0.
  Proof.
    intro H. destruct (Nat.eq_dec (m_I m0) 0) as [E0|N0]; [unfold integral; rewrite E0; reflexivity|].
    destruct (constant_spec ltac:(lia) H) as [C1 C2]. clear H.
    assert (TS : forall i c, weight_tangent (m t) i c = m_weight m0 i c * m_agent_weight m0 i * tangent (m_J m0) product_alone (snd d t i) (m_dp m0 i) c).
    { intros i c. unfold weight_tangent. cbn [with_p m_J m_same m_agent_weight m_p m_weight m_dp]. rewrite (tangent_same _ _ product_alone) by apply S. reflexivity. }
    destruct s as [o|o1 o2] eqn:Es.
    - (* first choices *)
      transitivity (sum_over (options_of o (m_J m0)) (fun a => m_weight m0 0 (Single a) *
        sumn (m_I m0) (fun i => m_agent_weight m0 i * tangent (m_J m0) product_alone (snd d t i) (m_dp m0 i) (Single a)))).
      + unfold integral. cbn [cells].
        transitivity (sumn (m_I m0) (fun i => sum_over (options_of o (m_J m0)) (fun a => m_weight m0 0 (Single a) * (m_agent_weight m0 i * tangent (m_J m0) product_alone (snd d t i) (m_dp m0 i) (Single a))))).
        * apply sumn_ext. intros i Hi. rewrite so_map. apply so_ext. intros a Ha. rewrite TS. rewrite (C1 i (Single a) Hi); [ring|]. cbn [cells]. apply in_map, Ha.
        * generalize (options_of o (m_J m0)). intro l. clear. induction l as [|a l IH]; cbn [sum_over]; [apply sumn_zero|].
          rewrite sumn_plus, IH, sumn_scal. reflexivity.
      + apply so_zero. intros a Ha. rewrite single_zero; [ring|]. apply (options_range o), Ha.
    - destruct (C2 o1 o2 eq_refl) as [-> C3].
      destruct (Nat.eq_dec (m_J m0) 0) as [J0|NJ].
      { unfold integral. rewrite (sumn_ext (m_I m0) _ (fun _ => 0)); [apply sumn_zero|]. intros i _. apply so_zero. intros c C. rewrite J0 in C.
        assert (EC : c = Pair None None) by (destruct o1; cbn in C; [destruct C as [<-|[]]; reflexivity|destruct C]). subst c. rewrite TS. cbn [tangent]. ring. }
      transitivity (sum_over (options_of o1 (m_J m0)) (fun a => m_weight m0 0 (Pair a None) *
        sumn (m_I m0) (fun i => m_agent_weight m0 i * tangent (m_J m0) product_alone (snd d t i) (m_dp m0 i) (Single a)))).
      + unfold integral. cbn [cells].
        transitivity (sumn (m_I m0) (fun i => sum_over (options_of o1 (m_J m0)) (fun a => m_weight m0 0 (Pair a None) * (m_agent_weight m0 i * tangent (m_J m0) product_alone (snd d t i) (m_dp m0 i) (Single a))))).
        * apply sumn_ext. intros i Hi. rewrite so_flat_map. apply so_ext. intros a Ha.
          assert (Pt : proper (m_J m0) (snd d t i)).
          { destruct S as [_ _ _ [r [Hr P]] _ _]. apply P; [rewrite Rminus_diag_eq, Rabs_R0 by reflexivity; exact Hr|exact Hi]. }
          rewrite <- (tangent_second_sum (m_J m0) (snd d t i) (m_dp m0 i) a Pt) by (try lia; apply (options_range o1), Ha).
          rewrite <- so_scal, <- so_scal. rewrite so_map. apply so_ext. intros b Hb. rewrite TS.
          assert (In2 : In (Pair a b) (cells (Three o1 true) (m_J m0))) by (cbn [cells]; apply in_flat_map; exists a; split; [exact Ha|apply in_map, Hb]).
          assert (In0 : In (Pair a None) (cells (Three o1 true) (m_J m0))) by (cbn [cells]; apply in_flat_map; exists a; split; [exact Ha|apply in_map; left; reflexivity]).
          rewrite (C3 i a b Hi In2), (C1 i _ Hi In0). ring.
        * generalize (options_of o1 (m_J m0)). intro l. clear. induction l as [|a l IH]; cbn [sum_over]; [apply sumn_zero|].
          rewrite sumn_plus, IH, sumn_scal. reflexivity.
      + apply so_zero. intros a Ha. rewrite single_zero; [ring|]. apply (options_range o1), Ha.
  Qed.
  Lemma denominator_one chunks : (chunks <= 1)%nat -> part_denominator_jacobian s (m t) chunks = integral s (m_J m0) (m_I m0) (weight_tangent (m t)).
  Proof.
    intro H. unfold part_denominator_jacobian, micro_chunks. destruct (Nat.ltb_spec 1 chunks); [lia|]. cbn [sum_over with_p m_I]. unfold denominator_tangent.
    destruct (constant_denominator s (m t) (seq 0 (m_I m0))) eqn:E.
    - rewrite constant_zero by exact E. ring.
    - unfold chunk_sum. rewrite so_seq. cbn [with_p m_J]. unfold integral. ring.
  Qed.
  Lemma denominator_part chunks : (chunks <= 1)%nat -> derivable_pt_lim (fun x => part_denominator s (m x) chunks) t (part_denominator_jacobian s (m t) chunks).
  Proof. intro H. rewrite denominator_one by exact H. apply denominator_sum. Qed.
End Contribution.

(** ** Aggregation *)
Lemma aggregate_deriv (ds : list path) (f : shape -> micro_market -> R) (g : shape -> micro_market -> R) t :
  (forall d, In d ds -> derivable_pt_lim (fun x => f (fst (at_ x d)) (snd (at_ x d))) t (g (fst (at_ t d)) (snd (at_ t d)))) ->
  derivable_pt_lim (fun x => sum_over (map (at_ x) ds) (fun m => f (fst m) (snd m))) t (sum_over (map (at_ t) ds) (fun m => g (fst m) (snd m))).
Proof.
  intro H. rewrite so_map. apply (dlim_ext (fun x => sum_over ds (fun d => f (fst (at_ x d)) (snd (at_ x d))))); [intro; rewrite so_map; reflexivity|].
  apply (so_deriv ds (fun d x => f (fst (at_ x d)) (snd (at_ x d))) (fun d => g (fst (at_ t d)) (snd (at_ t d)))). exact H.
Qed.
Lemma part_value_deriv ds t chunks part : (forall d, In d ds -> smooth_path t d) -> (chunks <= 1)%nat ->
  denominator chunks (map (at_ t) ds) <> 0 ->
  derivable_pt_lim (fun x => part_value chunks (map (at_ x) ds) part) t (part_jacobian chunks (map (at_ t) ds) part).
Proof.
  intros S C N. unfold part_value, part_jacobian.
  apply (deriv_div (fun x => numerator chunks (map (at_ x) ds) part) (fun x => denominator chunks (map (at_ x) ds))).
  - apply (aggregate_deriv ds (fun s m => part_numerator s m chunks part) (fun s m => part_numerator_jacobian s m chunks part)).
    intros d Hd. apply numerator_part, S, Hd.
  - apply (aggregate_deriv ds (fun s m => part_denominator s m chunks) (fun s m => part_denominator_jacobian s m chunks)).
    intros d Hd. apply denominator_part; [apply S, Hd|exact C].
  - exact N.
Qed.
Lemma micro_deriv ds t chunks P observed f g : (forall d, In d ds -> smooth_path t d) -> (chunks <= 1)%nat ->
  denominator chunks (map (at_ t) ds) <> 0 -> gradient_of P f g ->
  derivable_pt_lim (fun x => micro_moment chunks (map (at_ x) ds) P observed f) t (micro_jacobian chunks (map (at_ t) ds) P g).
Proof.
  intros S C N G. unfold micro_moment, micro_jacobian. eapply deriv_eq.
  - apply (deriv_minus (fun _ => observed) (fun x => f (part_value chunks (map (at_ x) ds)))); [apply derivable_pt_lim_const|].
    apply (G (fun x => part_value chunks (map (at_ x) ds))). intros q _. apply part_value_deriv; assumption.
  - cbv beta. ring.
Qed.

(** Covariances. *)
Lemma so_nested_ext {A B} (l : list A) (k : A -> list B) f g : (forall a b, In a l -> In b (k a) -> f a b = g a b) ->
  sum_over l (fun a => sum_over (k a) (f a)) = sum_over l (fun a => sum_over (k a) (g a)).
Proof. intro H. apply so_ext. intros a Ha. apply so_ext. intros b Hb. apply H; assumption. Qed.

Definition total (ms : list (shape * micro_market)) (f : micro_market -> nat -> cell -> R) : R :=
  sum_over ms (fun m => integral (fst m) (m_J (snd m)) (m_I (snd m)) (f (snd m))).
Lemma integral_plus s J I f g : integral s J I (fun i c => f i c + g i c) = integral s J I f + integral s J I g.
Proof. unfold integral. rewrite <- sumn_plus. apply sumn_ext. intros. apply so_plus. Qed.
Lemma integral_scal s J I a f : integral s J I (fun i c => a * f i c) = a * integral s J I f.
Proof. unfold integral. rewrite <- sumn_scal. apply sumn_ext. intros. apply so_scal. Qed.
Lemma integral_ext s J I f g : (forall i c, (i < I)%nat -> In c (cells s J) -> f i c = g i c) -> integral s J I f = integral s J I g.
Proof. intro H. unfold integral. apply sumn_ext. intros. apply so_ext. intros. apply H; assumption. Qed.
Lemma integral_nonneg s J I f : (forall i c, (i < I)%nat -> In c (cells s J) -> 0 <= f i c) -> 0 <= integral s J I f.
Proof. intro H. unfold integral. apply sumn_nonneg. intros. apply so_nonneg. intros. apply H; assumption. Qed.
Lemma total_plus ms f g : total ms (fun m i c => f m i c + g m i c) = total ms f + total ms g.
Proof. unfold total. rewrite <- so_plus. apply so_ext. intros. apply integral_plus. Qed.
Lemma total_scal ms a f : total ms (fun m i c => a * f m i c) = a * total ms f.
Proof. unfold total. rewrite <- so_scal. apply so_ext. intros. apply integral_scal. Qed.
Lemma total_ext ms f g : (forall m i c, f m i c = g m i c) -> total ms f = total ms g.
Proof. intro H. unfold total. apply so_ext. intros. apply integral_ext. intros. apply H. Qed.
Lemma total_nonneg ms f : (forall m i c, 0 <= f m i c) -> 0 <= total ms f.
Proof. intro H. unfold total. apply so_nonneg. intros. apply integral_nonneg. intros. apply H. Qed.

Lemma numerator_total chunks ms part : numerator chunks ms part = total ms (fun m i c => dataset_weight m i c * m_value m part i c).
Proof. unfold numerator, total, part_numerator. apply so_ext. intros. apply chunks_sum. Qed.
Lemma denominator_total chunks ms : denominator chunks ms = total ms dataset_weight.
Proof. unfold denominator, total, part_denominator. apply so_ext. intros. apply chunks_sum. Qed.
Lemma weight_nonneg m i c : 0 <= dataset_weight m i c.
Proof. unfold dataset_weight, truncate. destruct (Rlt_dec _ 0); lra. Qed.

Lemma covariance_form chunks ms n p1 p2 : denominator chunks ms <> 0 -> n <> 0 ->
  part_covariance chunks ms n p1 p2 * n * denominator chunks ms
  = total ms (fun m i c => dataset_weight m i c * (m_value m p1 i c - part_value chunks ms p1) * (m_value m p2 i c - part_value chunks ms p2)).
Proof.
  intros N Nn. set (v1 := part_value chunks ms p1). set (v2 := part_value chunks ms p2).
  transitivity (total ms (fun m i c => dataset_weight m i c * m_value m p1 i c * m_value m p2 i c) - v1 * v2 * denominator chunks ms).
  - unfold part_covariance. fold v1 v2.
    assert (E : sum_over ms (fun m => part_covariance_numerator (fst m) (snd m) chunks p1 p2) = total ms (fun m i c => dataset_weight m i c * m_value m p1 i c * m_value m p2 i c)).
    { unfold total, part_covariance_numerator. apply so_ext. intros. apply chunks_sum. }
    rewrite E. field. split; assumption.
  - rewrite (total_ext ms (fun m i c => dataset_weight m i c * (m_value m p1 i c - v1) * (m_value m p2 i c - v2))
      (fun m i c => dataset_weight m i c * m_value m p1 i c * m_value m p2 i c + ((- v2) * (dataset_weight m i c * m_value m p1 i c)
         + ((- v1) * (dataset_weight m i c * m_value m p2 i c) + (v1 * v2) * dataset_weight m i c)))) by (intros; ring).
    rewrite !total_plus, !total_scal. rewrite <- (numerator_total chunks ms p1), <- (numerator_total chunks ms p2), <- (denominator_total chunks ms).
    assert (N1 : numerator chunks ms p1 = v1 * denominator chunks ms) by (unfold v1, part_value; field; exact N).
    assert (N2 : numerator chunks ms p2 = v2 * denominator chunks ms) by (unfold v2, part_value; field; exact N).
    rewrite N1, N2. ring.
Qed.
Lemma covariance_symmetric chunks ms n p1 p2 : part_covariance chunks ms n p1 p2 = part_covariance chunks ms n p2 p1.
Proof.
  unfold part_covariance. f_equal. rewrite (Rmult_comm (part_value chunks ms p1)). f_equal. f_equal.
  apply so_ext. intros m _. unfold part_covariance_numerator. apply so_ext. intros c _. unfold chunk_sum. apply so_ext. intros i _. apply so_ext. intros. ring.
Qed.
Lemma covariance_psd chunks ms n P a : 0 < denominator chunks ms -> 0 < n ->
  0 <= sumn P (fun p => sumn P (fun q => a p * part_covariance chunks ms n p q * a q)).
Proof.
  intros D N. set (v := part_value chunks ms). set (den := denominator chunks ms) in *.
  assert (Q : sumn P (fun p => sumn P (fun q => a p * part_covariance chunks ms n p q * a q))
    = / (n * den) * total ms (fun m i c => dataset_weight m i c * (sumn P (fun p => a p * (m_value m p i c - v p)) * sumn P (fun q => a q * (m_value m q i c - v q))))).
  { assert (L : forall (h : nat -> micro_market -> nat -> cell -> R) K, sumn K (fun q => total ms (h q)) = total ms (fun m i c => sumn K (fun q => h q m i c))).
    { intros h K. induction K as [|K IH]; cbn [sumn].
      - symmetry. unfold total. apply so_zero. intros m _. unfold integral. rewrite (sumn_ext _ _ (fun _ => 0)); [apply sumn_zero|]. intros i _. apply so_zero. reflexivity.
      - rewrite IH. symmetry. apply total_plus. }
    transitivity (sumn P (fun p => sumn P (fun q => / (n * den) * total ms (fun m i c => dataset_weight m i c * ((a p * (m_value m p i c - v p)) * (a q * (m_value m q i c - v q))))))).
    - apply sumn_ext. intros p _. apply sumn_ext. intros q _.
      assert (E := covariance_form chunks ms n p q ltac:(fold den; lra) ltac:(lra)). fold den v in E.
      transitivity (/ (n * den) * (a p * a q * (part_covariance chunks ms n p q * n * den))); [field; lra|]. rewrite E. f_equal.
      rewrite <- total_scal. apply total_ext. intros. fold v. ring.
    - rewrite (sumn_ext P _ (fun p => / (n * den) * total ms (fun m i c => sumn P (fun q => dataset_weight m i c * ((a p * (m_value m p i c - v p)) * (a q * (m_value m q i c - v q))))))).
      + rewrite sumn_scal, L. f_equal. apply total_ext. intros m i c. rewrite <- sumn_scal_r, <- sumn_scal. apply sumn_ext. intros p _.
        rewrite sumn_scal. f_equal. rewrite <- sumn_scal. reflexivity.
      + intros p _. rewrite sumn_scal, L. reflexivity. }
  rewrite Q. apply Rmult_le_pos; [left; apply Rinv_0_lt_compat; nra|]. apply total_nonneg. intros m i c. apply Rmult_le_pos; [apply weight_nonneg|].
  exact (Rle_0_sqr _).
Qed.

(** ** Scores *)
Lemma np_unique_single n : np_unique [n] = [n].
Proof. reflexivity. Qed.
Lemma appearances_in ids : forall seen n, In n (appearances seen ids) <-> In n ids /\ existsb (Z.eqb n) seen = false.
Proof.
  induction ids as [|k ids IH]; intros seen n; cbn [appearances]; [split; [intros []|intros [[] _]]|].
  destruct (existsb (Z.eqb k) seen) eqn:E.
  - rewrite IH. split; [intros [A B]; split; [right; exact A|exact B]|]. intros [[->|A] B]; [congruence|split; assumption].
  - cbn [In]. rewrite IH. cbn [existsb]. split.
    + intros [->|[A B]]; [split; [left; reflexivity|exact E]|]. apply orb_false_iff in B. split; [right; apply A|apply B].
    + intros [A B]. destruct (Z.eq_dec k n) as [->|N]; [left; reflexivity|]. right. destruct A as [A|A]; [contradiction|]. split; [exact A|].
      rewrite B. destruct (Z.eqb_spec n k); [congruence|reflexivity].
Qed.
Lemma appearances_sorted ids : StronglySorted Z.le ids -> forall seen, StronglySorted Z.lt (appearances seen ids).
Proof.
  induction ids as [|k ids IH]; intros S seen; cbn [appearances]; [constructor|]. inversion S as [|? ? S' F]; subst.
  destruct (existsb (Z.eqb k) seen); [apply IH, S'|]. constructor; [apply IH, S'|].
  apply Forall_forall. intros n H. apply appearances_in in H. destruct H as [A B]. rewrite Forall_forall in F. assert (L := F n A).
  cbn [existsb] in B. apply orb_false_iff in B. destruct B as [B _]. apply Z.eqb_neq in B. lia.
Qed.

Lemma increasing_ext : forall u v : list Z, StronglySorted Z.lt u -> StronglySorted Z.lt v -> (forall t, In t u <-> In t v) -> u = v.
Proof.
  induction u as [|x u IH]; intros v I J E.
  - destruct v as [|y v]; [reflexivity|]. exfalso. apply (E y). left. reflexivity.
  - destruct v as [|y v]; [exfalso; apply (E x); left; reflexivity|].
    inversion I as [|? ? Iu Hx]; subst. inversion J as [|? ? Jv Hy]; subst. rewrite Forall_forall in Hx, Hy.
    assert (Q : x = y).
    { destruct (proj1 (E x) (or_introl eq_refl)) as [|A]; [congruence|].
      destruct (proj2 (E y) (or_introl eq_refl)) as [|B]; [congruence|].
      specialize (Hx _ B). specialize (Hy _ A). lia. }
    subst y. f_equal. apply IH; [exact Iu|exact Jv|]. intro t. split; intro T.
    + destruct (proj1 (E t) (or_intror T)) as [<-|A]; [|exact A]. specialize (Hx _ T). lia.
    + destruct (proj2 (E t) (or_intror T)) as [<-|A]; [|exact A]. specialize (Hy _ T). lia.
Qed.
Lemma increasing_sorted l : WelfareProofs.increasing l -> StronglySorted Z.lt l.
Proof. intro I. induction I as [|x l H I IH]; constructor; [exact IH|]. apply Forall_forall. exact H. Qed.
Lemma unique_appearances ids : StronglySorted Z.le ids -> np_unique ids = appearances [] ids.
Proof.
  intro S. apply increasing_ext; [apply increasing_sorted, WelfareProofs.np_unique_increasing|apply appearances_sorted, S|].
  intro n. rewrite WelfareProofs.np_unique_in, appearances_in. cbn [existsb]. tauto.
Qed.
Lemma so_perm {A} (l k : list A) f : Permutation l k -> sum_over l f = sum_over k f.
Proof. intro P. induction P; cbn [sum_over]; lra. Qed.
Lemma sorted_nodup l : StronglySorted Z.lt l -> NoDup l.
Proof. intro S. induction S as [|x l S IH F]; constructor; [|exact IH]. rewrite Forall_forall in F. intro H. specialize (F _ H). lia. Qed.
Lemma unique_sum ids D f : NoDup D -> (forall t, In t D <-> In t ids) -> sum_over (np_unique ids) f = sum_over D f.
Proof.
  intros N E. apply so_perm, NoDup_Permutation; [apply sorted_nodup, increasing_sorted, WelfareProofs.np_unique_increasing|exact N|].
  intro t. rewrite WelfareProofs.np_unique_in, E. reflexivity.
Qed.

Lemma scores_form {X} num den (data : list (micro_row X)) D : StronglySorted Z.le (map r_id data) -> NoDup D ->
  (forall t, In t D <-> In t (map r_market data)) ->
  scores num den data = Some (map (fun n => snd (num (rows_with data n)) / fst (num (rows_with data n))
    - sum_over D (fun t => snd (den t)) / sum_over D (fun t => fst (den t))) (appearances [] (map r_id data))).
Proof.
  intros S N E. unfold scores.
  assert (C : sorted_check (map (fun r => [r_id r]) data) = true).
  { rewrite <- (map_map r_id (fun i => [i])). apply PrimProofs.sort_check_vacuous. }
  rewrite C, (unique_appearances _ S). cbv zeta. rewrite !(unique_sum _ D _ N E). reflexivity.
Qed.
Lemma log_deriv N D t n d : 0 < N t -> 0 < D t -> derivable_pt_lim N t n -> derivable_pt_lim D t d ->
  derivable_pt_lim (fun x => ln (N x / D x)) t (n / N t - d / D t).
Proof.
  intros PN PD HN HD. eapply deriv_eq.
  - apply (derivable_pt_lim_comp (fun x => N x / D x) ln t); [apply deriv_div; [exact HN|exact HD|lra]|]. apply derivable_pt_lim_ln.
    apply Rdiv_lt_0_compat; assumption.
  - field. lra.
Qed.

(** ** Chunks *)
Lemma chunk_free_jacobian s m n : (forall c, In c (micro_chunks (m_I m) n) -> constant_denominator s m c = false) ->
  part_denominator_jacobian s m n = integral s (m_J m) (m_I m) (weight_tangent m).
Proof.
  intro H. rewrite <- (chunks_sum s m n). unfold part_denominator_jacobian. apply so_ext. intros c C. unfold denominator_tangent. rewrite H by exact C. reflexivity.
Qed.
Lemma chunk_constant s m c k : constant_denominator s m c = true -> incl k c -> constant_denominator s m k = true.
Proof.
  intros H I. destruct k as [|i k]; [reflexivity|]. destruct c as [|f c]; [exfalso; apply (I i); left; reflexivity|].
  unfold constant_denominator in *. apply andb_true_iff in H. destruct H as [A B]. apply andb_true_iff. rewrite forallb_forall in A. split.
  - apply forallb_forall. intros i' Hi'. apply forallb_forall. intros e He.
    assert (A1 := A _ (I _ Hi')). assert (A2 := A _ (I i (or_introl eq_refl))). rewrite forallb_forall in A1, A2.
    specialize (A1 _ He). specialize (A2 _ He). apply reqb_spec in A1. apply reqb_spec in A2. apply reqb_spec. congruence.
  - destruct s as [o|o1 o2]; [reflexivity|]. apply andb_true_iff in B. destruct B as [B1 B2]. apply andb_true_iff. split; [exact B1|].
    rewrite forallb_forall in B2. apply forallb_forall. intros i' Hi'. apply B2, I, Hi'.
Qed.
Lemma chunk_constant_jacobian s m n : constant_denominator s m (seq 0 (m_I m)) = true -> part_denominator_jacobian s m n = 0.
Proof.
  intro H. unfold part_denominator_jacobian. apply so_zero. intros c C. unfold denominator_tangent.
  rewrite (chunk_constant s m _ c H); [reflexivity|]. intros i Hi. apply in_seq. assert (L := chunk_in _ _ _ _ C Hi). lia.
Qed.
Lemma chunk_sum_invariant s m f n n' : sum_over (micro_chunks (m_I m) n) (chunk_sum s m f) = sum_over (micro_chunks (m_I m) n') (chunk_sum s m f).
Proof. rewrite !chunks_sum. reflexivity. Qed.

(** One product, two agents whose survey weights differ. *)
Definition two_agents : micro_market :=
  mk_micro_market 1 2 Nat.eqb (fun _ => / 2) (fun _ _ => / 2) (fun i _ => match i with O => 1 | _ => - 1 end)
    (fun i _ => match i with O => 1 | _ => 2 end) (fun _ i _ => match i with O => 1 | _ => 0 end).
Lemma reqb_21 : reqb 2 1 = false.
Proof. unfold reqb. destruct (Req_EM_T 2 1); [exfalso; lra|reflexivity]. Qed.
Lemma reqb_refl x : reqb x x = true.
Proof. apply reqb_spec. reflexivity. Qed.
Lemma two_agents_one : part_denominator_jacobian (Two false) two_agents 1 = - / 2.
Proof.
  rewrite chunk_free_jacobian.
  - unfold integral, weight_tangent, two_agents. cbn [m_J m_I m_same m_agent_weight m_p m_dp m_weight sumn cells options_of app map seq sum_over tangent]. field.
  - intros c [<-|[]]. unfold constant_denominator, two_agents. cbn [m_I m_J m_weight seq cells options_of app map forallb]. rewrite reqb_21, reqb_refl. reflexivity.
Qed.
Lemma two_agents_two : part_denominator_jacobian (Two false) two_agents 2 = 0.
Proof.
  unfold part_denominator_jacobian. apply so_zero. intros c C. unfold denominator_tangent.
  assert (E : c = [0%nat] \/ c = [1%nat]).
  { change (micro_chunks (m_I two_agents) 2) with [[0%nat]; [1%nat]] in C. destruct C as [<-|[<-|[]]]; [left|right]; reflexivity. }
  assert (K : constant_denominator (Two false) two_agents c = true).
  { destruct E as [->| ->]; unfold constant_denominator, two_agents; cbn [m_I m_J m_weight seq cells options_of app map forallb]; rewrite !reqb_refl; reflexivity. }
  rewrite K. reflexivity.
Qed.
Lemma two_agents_smooth : smooth_path 0 (Two false, two_agents, fun x i _ => / 2 + match i with O => x | _ => - x end).
Proof.
  constructor; cbn [fst snd two_agents m_J m_I m_same m_agent_weight m_dp m_weight].
  - reflexivity.
  - intros. lra.
  - intros [|i] c; lra.
  - exists (/ 4). split; [lra|]. intros x Hx i Hi. rewrite Rminus_0_r in Hx. apply Rabs_def2 in Hx. split; [intros j Hj; destruct i; lra|]. cbn [sumn]. destruct i; lra.
  - intros i j Hi Hj. destruct i.
    + eapply deriv_eq; [apply (derivable_pt_lim_plus (fun _ => / 2) (fun x => x)); [apply derivable_pt_lim_const|apply derivable_pt_lim_id]|]. ring.
    + eapply deriv_eq; [apply (derivable_pt_lim_plus (fun _ => / 2) (fun x => - x)); [apply derivable_pt_lim_const|apply (deriv_opp (fun x => x)); apply derivable_pt_lim_id]|]. ring.
  - intros j Hj. cbn [sumn]. field.
Qed.
Lemma two_agents_weight i c : (i < 2)%nat -> In c (cells (Two false) 1) -> dataset_weight two_agents i c = match i with O => / 4 | _ => / 2 end.
Proof.
  intros Hi C. assert (E : c = Single (Some 0%nat)) by (cbn in C; destruct C as [<-|[]]; reflexivity). subst c.
  unfold dataset_weight, two_agents. cbn [m_J m_same m_agent_weight m_p m_weight probability]. rewrite truncate_nonneg by (destruct i; lra). destruct i; field.
Qed.
Lemma two_agents_denominator n : part_denominator (Two false) two_agents n = 3 / 4.
Proof.
  unfold part_denominator. rewrite chunks_sum.
  rewrite (integral_ext _ _ _ _ (fun i _ => match i with O => / 4 | _ => / 2 end)); [|intros; apply two_agents_weight; assumption].
  unfold integral. cbn [two_agents m_I m_J sumn cells options_of app map seq sum_over]. field.
Qed.
Lemma two_agents_numerator n : part_numerator (Two false) two_agents n 0 = / 4.
Proof.
  unfold part_numerator. rewrite chunks_sum.
  rewrite (integral_ext _ _ _ _ (fun i _ => match i with O => / 4 | _ => 0 end)).
  - unfold integral. cbn [two_agents m_I m_J sumn cells options_of app map seq sum_over]. field.
  - intros i c Hi C. rewrite two_agents_weight by assumption. unfold two_agents. cbn [m_value]. destruct i; field.
Qed.
Lemma two_agents_numerator_jacobian n : part_numerator_jacobian (Two false) two_agents n 0 = / 2.
Proof.
  unfold part_numerator_jacobian. rewrite chunks_sum. unfold integral, weight_tangent, two_agents.
  cbn [m_J m_I m_same m_agent_weight m_p m_dp m_weight m_value sumn cells options_of app map seq sum_over tangent]. field.
Qed.
Lemma two_agents_parts : part_jacobian 1 [(Two false, two_agents)] 0 = 8 / 9 /\ part_jacobian 2 [(Two false, two_agents)] 0 = 2 / 3.
Proof.
  unfold part_jacobian, part_value, numerator, denominator, numerator_jacobian, denominator_jacobian.
  cbn [sum_over fst snd]. rewrite !two_agents_numerator_jacobian, !two_agents_denominator, !two_agents_numerator, two_agents_one, two_agents_two. split; field.
Qed.

(** ** Truncated and grouped weights *)

(** Two agents with integration weights 2 and -1, as on sparse grids; one product. *)
Definition grid_market (V : nat -> nat -> R) : micro_market :=
  mk_micro_market 1 2 Nat.eqb (fun i => match i with O => 2 | _ => - 1 end) (fun i => logit 1 all_goods true (V i)) (fun _ _ => 0)
    (fun _ _ => 1) (fun _ i _ => match i with O => 1 | _ => 0 end).
Lemma logit_one V : logit 1 all_goods true V 0 = exp (V 0%nat) / (1 + exp (V 0%nat)).
Proof. unfold logit, all_goods. cbn [sumn]. rewrite Rplus_0_l. reflexivity. Qed.
Lemma grid_weight i c : (i < 2)%nat -> In c (cells (Two false) 1) -> dataset_weight (grid_market (fun _ _ => 0)) i c = match i with O => 1 | _ => 0 end.
Proof.
  intros Hi C. assert (E : c = Single (Some 0%nat)) by (cbn in C; destruct C as [<-|[]]; reflexivity). subst c.
  unfold dataset_weight, grid_market. cbn [m_J m_same m_agent_weight m_p m_weight probability]. rewrite logit_one, exp_0.
  destruct i; unfold truncate; match goal with |- context [Rlt_dec ?a ?b] => destruct (Rlt_dec a b) end; lra.
Qed.
Lemma grid_value chunks : part_value chunks [(Two false, grid_market (fun _ _ => 0))] 0 = 1.
Proof.
  unfold part_value, numerator, denominator, part_numerator, part_denominator. cbn [sum_over fst snd]. rewrite !chunks_sum.
  rewrite (integral_ext _ _ _ _ (fun i _ => match i with O => 1 | _ => 0 end)).
  rewrite (integral_ext _ _ _ (dataset_weight _) (fun i _ => match i with O => 1 | _ => 0 end)).
  - unfold integral. cbn [grid_market m_I m_J sumn cells options_of app map seq sum_over]. field.
  - intros. apply grid_weight; assumption.
  - intros i c Hi C. rewrite grid_weight by assumption. unfold grid_market. cbn [m_value]. destruct i; ring.
Qed.

(** Two products in one group. *)
Definition group_market (V : nat -> R) : micro_market :=
  mk_micro_market 2 1 (fun _ _ => true) (fun _ => 1) (fun _ => logit 2 all_goods true V) (fun _ _ => 0)
    (fun _ _ => 1) (fun _ _ c => match c with Pair (Some O) _ => 1 | _ => 0 end).
Lemma logit_two V : exp (V 0%nat) = 1 -> exp (V 1%nat) = 2 -> logit 2 all_goods true V 0 = / 4 /\ logit 2 all_goods true V 1 = / 2.
Proof. intros A B. unfold logit, all_goods. cbn [sumn indR]. rewrite A, B. split; field. Qed.
Definition group_utilities (k : nat) : R := match k with O => 0 | _ => ln 2 end.
Lemma group_exp : exp (group_utilities 0) = 1 /\ exp (group_utilities 1) = 2.
Proof. cbn [group_utilities]. split; [apply exp_0|apply exp_ln; lra]. Qed.
Lemma truncate_neg x : x <= 0 -> truncate x = 0.
Proof. intro H. unfold truncate. destruct (Rlt_dec x 0); lra. Qed.
Lemma group_weight p0 p1 w j b : 0 <= p0 -> 0 <= p1 -> p0 + p1 <= 1 -> 0 <= w -> (j < 2)%nat -> in_range 2 b ->
  truncate (1 * w * probability 2 (fun _ _ => true) (fun k => match k with O => p0 | _ => p1 end) (Pair (Some j) b)) =
  match b with None => w * (p0 + p1) | Some _ => 0 end.
Proof.
  intros H0 H1 H2 Hw Hj Hb. destruct b as [k|]; cbn [probability].
  - apply truncate_neg. destruct (Nat.eqb j k); [lra|]. unfold eliminated. destruct k; nra.
  - unfold eliminated_outside, eliminated, outside. cbn [sumn]. rewrite truncate_nonneg; [ring|nra].
Qed.
Lemma group_value chunks : part_value chunks [(Three false true, group_market group_utilities)] 0 = / 2.
Proof.
  destruct group_exp as [E0 E1]. destruct (logit_two _ E0 E1) as [L0 L1].
  assert (W : forall i c, In c (cells (Three false true) 2) -> dataset_weight (group_market group_utilities) i c
    = match c with Pair (Some _) None => 3 / 4 | _ => 0 end).
  { intros i c C. destruct c as [a|a b]; [cbn in C; exfalso; firstorder discriminate|].
    destruct a as [j|]; [|cbn in C; exfalso; firstorder discriminate].
    destruct (cells_range _ _ _ C) as [_ R]. destruct (R _ _ eq_refl) as [R1 R2]. cbn [in_range] in R1.
    unfold dataset_weight, group_market. cbn [m_J m_same m_agent_weight m_p m_weight].
    assert (Q := group_weight (/ 4) (/ 2) 1 j b ltac:(lra) ltac:(lra) ltac:(lra) ltac:(lra) R1 R2).
    transitivity (match b with Some _ => 0 | None => 1 * (/ 4 + / 2) end); [|destruct b; field]. etransitivity; [|exact Q]. f_equal. f_equal.
    unfold probability. destruct b as [k|]; unfold eliminated, eliminated_outside, outside.
    - cbn [in_range] in R2. destruct k as [|[|k]]; [rewrite L0|rewrite L1|lia]; reflexivity.
    - cbn [sumn]. rewrite L0, L1. reflexivity. }
  unfold part_value, numerator, denominator, part_numerator, part_denominator. cbn [sum_over fst snd]. rewrite !chunks_sum.
  rewrite (integral_ext _ _ _ (dataset_weight _) (fun _ c => match c with Pair (Some _) None => 3 / 4 | _ => 0 end)); [|intros i c _ C; apply W, C].
  rewrite (integral_ext _ _ _ _ (fun _ c => match c with Pair (Some _) None => 3 / 4 | _ => 0 end * match c with Pair (Some O) _ => 1 | _ => 0 end));
    [|intros i c _ C; rewrite W by exact C; reflexivity].
  unfold integral. cbn [group_market m_I m_J sumn cells options_of app map seq flat_map sum_over]. field.
Qed.
Lemma group_documented : documented_part [(Three false true, group_market group_utilities, fun _ => group_utilities)] 0 = / 3.
Proof.
  destruct group_exp as [E0 E1]. destruct (logit_two _ E0 E1) as [L0 L1].
  assert (W : forall c, In c (cells (Three false true) 2) -> documented 2 (fun _ _ => true) group_utilities c =
    match c with Pair (Some O) None => / 4 | Pair (Some _) None => / 2 | _ => 0 end).
  { intros c C. destruct c as [a|a b]; [cbn in C; exfalso; firstorder discriminate|].
    destruct a as [j|]; [|cbn in C; exfalso; firstorder discriminate].
    destruct (cells_range _ _ _ C) as [_ R]. destruct (R _ _ eq_refl) as [R1 R2]. cbn [in_range] in R1.
    cbn [documented]. unfold joint. cbn [chosen negb]. destruct b as [k|].
    - assert (Z : logit 2 (fun _ => false) true group_utilities k = 0) by reflexivity. unfold negb. cbn [chosen]. rewrite Z. destruct j as [|[|j]]; ring.
    - unfold negb. cbn [chosen sumn]. destruct j as [|[|j]]; [rewrite L0|rewrite L1|lia]; field. }
  unfold documented_part, documented_total. cbn [sum_over fst snd group_market m_J m_I m_same m_agent_weight m_weight].
  rewrite (integral_ext _ _ _ _ (fun _ c => match c with Pair (Some O) None => / 4 | Pair (Some _) None => / 2 | _ => 0 end * match c with Pair (Some O) _ => 1 | _ => 0 end));
    [|intros i c _ C; rewrite W by exact C; cbn [group_market m_value]; ring].
  rewrite (integral_ext _ _ _ (fun i c => 1 * documented 2 (fun _ _ => true) group_utilities c * 1 * 1) (fun _ c => match c with Pair (Some O) None => / 4 | Pair (Some _) None => / 2 | _ => 0 end));
    [|intros i c _ C; rewrite W by exact C; ring].
  unfold integral. cbn [sumn cells options_of app map seq flat_map sum_over]. field.
Qed.
Lemma grid_documented : documented_part [(Two false, grid_market (fun _ _ => 0), fun _ _ => 0)] 0 = 2.
Proof.
  unfold documented_part, documented_total, integral. cbn [sum_over fst snd grid_market m_J m_I m_same m_agent_weight m_weight m_value sumn cells options_of app map seq documented chosen].
  rewrite logit_one, exp_0. field.
Qed.
Lemma logit_positive J V j : 0 < logit J all_goods true V j.
Proof. rewrite logit_all. apply Rdiv_lt_0_compat; [apply exp_pos|apply total_pos]. Qed.
Lemma logit_below J V : sumn J (logit J all_goods true V) < 1.
Proof. assert (X := logit_outside J V). assert (T := total_pos J V). assert (0 < 1 / (1 + sumn J (fun k => exp (V k)))) by (apply Rdiv_lt_0_compat; lra). lra. Qed.
Lemma weights_documented ms : (forall d, In d ms -> from_utilities d /\ nonnegative_weights d /\ forall j k, m_same (snd (fst d)) j k = Nat.eqb j k) ->
  forall d i c, In d ms -> In c (cells (fst (fst d)) (m_J (snd (fst d)))) -> dataset_weight (snd (fst d)) i c =
    m_agent_weight (snd (fst d)) i * documented (m_J (snd (fst d))) (m_same (snd (fst d))) (snd d i) c * m_weight (snd (fst d)) i c.
Proof.
  intro H.
  { intros d i c Hd C. destruct (H d Hd) as (U & [A B] & S). destruct d as [[s m] V]. unfold from_utilities in U. cbn [fst snd] in *. destruct (cells_range _ _ _ C) as [C1 C2].
    unfold dataset_weight. rewrite (probability_same _ _ product_alone) by exact S.
    assert (EP : probability (m_J m) product_alone (m_p m i) c = documented (m_J m) (m_same m) (V i) c).
    { transitivity (probability (m_J m) product_alone (logit (m_J m) all_goods true (V i)) c).
      - clear - U. assert (Q : forall n, sumn n (m_p m i) = sumn n (logit (m_J m) all_goods true (V i))) by (intro; apply sumn_ext; intros; apply U).
        assert (QE : forall j k, eliminated (m_J m) product_alone (m_p m i) j k = eliminated (m_J m) product_alone (logit (m_J m) all_goods true (V i)) j k).
        { intros j k. unfold eliminated, removed. rewrite (U i k). destruct (product_alone j k); [reflexivity|]. apply (f_equal (fun x => logit (m_J m) all_goods true (V i) k / (1 - x))). apply sumn_ext. intros l _. rewrite (U i l). reflexivity. }
        destruct c as [[j|]|[j|] [k|]]; cbn [probability]; unfold outside, outside_eliminated, eliminated_outside; rewrite ?QE, ?Q, ?(U i j), ?(U i k); cbn [fst snd]; try reflexivity.
        rewrite (sumn_ext _ _ _ (fun k _ => QE j k)). reflexivity.
      - rewrite probability_documented by assumption. destruct c as [a|[j|] b]; cbn [documented]; unfold joint; [reflexivity| |reflexivity].
        apply Rmult_eq_compat_l. assert (Q : forall k, negb (product_alone j k) = negb (m_same m j k)) by (intro; rewrite S; reflexivity).
        destruct b as [b|]; cbn [chosen]; unfold logit; rewrite ?Q.
        + rewrite (sumn_ext (m_J m) _ (fun k => if negb (m_same m j k) then exp (V i k) else 0)); [reflexivity|]. intros k _. rewrite Q. reflexivity.
        + rewrite (sumn_ext (m_J m) _ (fun k => if negb (m_same m j k) then exp (V i k) else 0)); [reflexivity|]. intros k _. rewrite Q. reflexivity. }
    rewrite EP. rewrite truncate_nonneg; [ring|]. rewrite <- EP. apply Rmult_le_pos; [apply Rmult_le_pos; [apply B|apply A]|].
    apply cell_nonneg; [|assumption|assumption]. split.
    - intros j Hj. rewrite U. apply logit_positive.
    - rewrite (sumn_ext _ _ _ (fun k _ => U i k)). apply logit_below. }
Qed.
Lemma total_documented ms f : (forall d, In d ms -> from_utilities d /\ nonnegative_weights d /\ forall j k, m_same (snd (fst d)) j k = Nat.eqb j k) ->
  total (map fst ms) (fun m i c => dataset_weight m i c * f m i c) = documented_total ms f.
Proof.
  intro H. unfold total, documented_total. rewrite so_map. apply so_ext. intros d Hd. apply integral_ext. intros i c _ C.
  rewrite (weights_documented ms H d i c Hd C). reflexivity.
Qed.
Lemma denominator_documented chunks ms : (forall d, In d ms -> from_utilities d /\ nonnegative_weights d /\ forall j k, m_same (snd (fst d)) j k = Nat.eqb j k) ->
  denominator chunks (map fst ms) = documented_total ms (fun _ _ _ => 1).
Proof. intro H. rewrite denominator_total, <- (total_documented ms _ H). apply total_ext. intros. ring. Qed.
Lemma parts_documented chunks ms part : (forall d, In d ms -> from_utilities d /\ nonnegative_weights d /\ forall j k, m_same (snd (fst d)) j k = Nat.eqb j k) ->
  part_value chunks (map fst ms) part = documented_part ms part.
Proof.
  intro H. unfold part_value, documented_part. rewrite (denominator_documented chunks ms H), numerator_total, (total_documented ms (fun m => m_value m part) H). reflexivity.
Qed.
Lemma covariance_documented chunks ms n p q : (forall d, In d ms -> from_utilities d /\ nonnegative_weights d /\ forall j k, m_same (snd (fst d)) j k = Nat.eqb j k) ->
  documented_total ms (fun _ _ _ => 1) <> 0 -> n <> 0 ->
  part_covariance chunks (map fst ms) n p q
  = documented_total ms (fun m i c => (m_value m p i c - documented_part ms p) * (m_value m q i c - documented_part ms q)) / documented_total ms (fun _ _ _ => 1) / n.
Proof.
  intros H N Nn. assert (E := covariance_form chunks (map fst ms) n p q). rewrite (denominator_documented chunks ms H) in E. specialize (E N Nn).
  rewrite !(parts_documented chunks ms _ H) in E.
  rewrite <- (total_documented ms (fun m i c => (m_value m p i c - documented_part ms p) * (m_value m q i c - documented_part ms q)) H).
  rewrite (total_ext (map fst ms) (fun m i c => dataset_weight m i c * ((m_value m p i c - documented_part ms p) * (m_value m q i c - documented_part ms q)))
    (fun m i c => dataset_weight m i c * (m_value m p i c - documented_part ms p) * (m_value m q i c - documented_part ms q))) by (intros; ring).
  rewrite <- E. field. split; assumption.
Qed.

(** Two agents, and two products in one group. *)
Definition group_path : path :=
  (Three false true,
   mk_micro_market 2 2 (fun _ _ => true) (fun _ => / 2) (fun _ _ => 0) (fun i k => match k with O => 0 | _ => match i with O => 1 | _ => - 1 end end)
     (fun _ _ => 1) (fun _ i c => match i, c with O, Pair (Some O) (Some (S O)) => 1 | _, _ => 0 end),
   fun x i k => match k with O => / 4 | _ => match i with O => / 2 + x | _ => / 2 - x end end).
Lemma group_smooth : smooth_path 0 (ungrouped group_path).
Proof.
  constructor; unfold ungrouped, group_path; cbn [fst snd m_J m_I m_same m_agent_weight m_dp m_weight].
  - reflexivity.
  - intros. lra.
  - intros. lra.
  - exists (/ 5). split; [lra|]. intros x Hx i Hi. rewrite Rminus_0_r in Hx. apply Rabs_def2 in Hx. split; [intros [|j] Hj; destruct i; lra|]. cbn [sumn]. destruct i; lra.
  - intros i j Hi Hj. destruct j; [apply derivable_pt_lim_const|]. destruct i.
    + eapply deriv_eq; [apply (derivable_pt_lim_plus (fun _ => / 2) (fun x => x)); [apply derivable_pt_lim_const|apply derivable_pt_lim_id]|]. ring.
    + eapply deriv_eq; [apply (derivable_pt_lim_minus (fun _ => / 2) (fun x => x)); [apply derivable_pt_lim_const|apply derivable_pt_lim_id]|]. ring.
  - intros [|j] Hj; cbn [sumn]; field.
Qed.
Lemma three_cells c : In c (cells (Three false true) 2) -> exists j b, c = Pair (Some j) b /\ (j < 2)%nat /\ in_range 2 b.
Proof.
  intro C. destruct c as [a|a b]; [cbn in C; exfalso; firstorder discriminate|].
  destruct a as [j|]; [|cbn in C; exfalso; firstorder discriminate].
  destruct (cells_range _ _ _ C) as [_ R]. destruct (R _ _ eq_refl) as [R1 R2]. exists j, b. split; [reflexivity|split; assumption].
Qed.
Lemma group_path_weight x i c : - / 5 < x < / 5 -> In c (cells (Three false true) 2) ->
  dataset_weight (snd (at_ x group_path)) i c = match c with Pair _ None => / 2 * (3 / 4 + match i with O => x | _ => - x end) | _ => 0 end.
Proof.
  intros Hx C. destruct (three_cells c C) as (j & b & -> & Hj & Hb).
  assert (Q := group_weight (/ 4) (match i with O => / 2 + x | _ => / 2 - x end) (/ 2) j b ltac:(lra) ltac:(destruct i; lra) ltac:(destruct i; lra) ltac:(lra) Hj Hb).
  transitivity (match b with Some _ => 0 | None => / 2 * (/ 4 + match i with O => / 2 + x | S _ => / 2 - x end) end); [exact Q|].
  destruct b; [reflexivity|]. destruct i; field.
Qed.
Lemma group_path_value x chunks : - / 5 < x < / 5 -> part_value chunks [at_ x group_path] 0 = 0.
Proof.
  intro Hx. unfold part_value. rewrite numerator_total. unfold total. cbn [sum_over].
  rewrite (integral_ext _ _ _ _ (fun _ _ => 0)); [unfold integral|].
  - rewrite (sumn_ext _ _ (fun _ => 0)); [rewrite sumn_zero; unfold Rdiv; ring|]. intros. apply so_zero. reflexivity.
  - intros i c _ C. rewrite (group_path_weight x i c Hx C). destruct (three_cells c C) as (j & b & -> & Hj & Hb).
    unfold at_, group_path. cbn [with_p m_value fst snd]. destruct b; [ring|]. destruct i; [destruct j|]; ring.
Qed.
Lemma ratio_zero y : ratio 0 y = 0.
Proof. unfold ratio. destruct (Req_EM_T y 0); [reflexivity|]. unfold Rdiv. ring. Qed.
Lemma group_path_jacobian : part_jacobian 1 [at_ 0 group_path] 0 = - / 3.
Proof.
  unfold part_jacobian. rewrite group_path_value by lra. unfold numerator_jacobian. cbn [sum_over].
  rewrite denominator_total. unfold total. cbn [sum_over].
  rewrite (integral_ext _ _ _ (dataset_weight _) (fun _ c => match c with Pair _ None => 3 / 8 | _ => 0 end)).
  - unfold part_numerator_jacobian. rewrite chunks_sum. unfold integral, weight_tangent, at_, group_path.
    cbn [with_p m_J m_I m_same m_agent_weight m_p m_dp m_weight m_value sumn cells options_of app map seq flat_map sum_over tangent Nat.eqb fst snd].
    unfold eliminated_tangent, eliminated. rewrite !ratio_zero. field.
  - intros i c _ C. rewrite (group_path_weight 0 i c ltac:(lra) C). destruct c as [a|a [b|]]; try reflexivity. destruct i; field.
Qed.
Lemma group_not_derivative : ~ derivable_pt_lim (fun x => part_value 1 [at_ x group_path] 0) 0 (part_jacobian 1 [at_ 0 group_path] 0).
Proof.
  intro H. assert (Z : derivable_pt_lim (fun x => part_value 1 [at_ x group_path] 0) 0 0).
  { apply (deriv_local (fun _ => 0) _ 0 0 (/ 5)); [lra| |apply derivable_pt_lim_const]. intros x Hx. rewrite Rminus_0_r in Hx. apply Rabs_def2 in Hx. symmetry. apply group_path_value. lra. }
  assert (E := uniqueness_limite _ _ _ _ H Z). rewrite group_path_jacobian in E. lra.
Qed.
Lemma group_path_denominator : denominator 1 [at_ 0 group_path] = 3 / 2.
Proof.
  rewrite denominator_total. unfold total. cbn [sum_over].
  rewrite (integral_ext _ _ _ (dataset_weight _) (fun _ c => match c with Pair _ None => 3 / 8 | _ => 0 end)).
  - unfold integral, at_, group_path. cbn [with_p m_J m_I sumn cells options_of app map seq flat_map sum_over fst snd]. field.
  - intros i c _ C. rewrite (group_path_weight 0 i c ltac:(lra) C). destruct c as [a|a [b|]]; try reflexivity. destruct i; field.
Qed.

(** Scores. *)
Definition plain_numerator (rows : list (micro_row Z)) : R * R := (1, match rows with r :: _ => IZR (r_data r) | [] => 0 end).
Definition plain_denominator (t : Z) : R * R := (1, IZR t).
Lemma scores_two_one : scores plain_numerator plain_denominator [mk_micro_row 2 0 20; mk_micro_row 1 0 10]%Z = Some [10; 20].
Proof.
  assert (E : scores plain_numerator plain_denominator [mk_micro_row 2 0 20; mk_micro_row 1 0 10]%Z = Some [10 / 1 - (0 + 0) / (1 + 0); 20 / 1 - (0 + 0) / (1 + 0)]) by reflexivity.
  rewrite E. f_equal. f_equal; [field|f_equal; field].
Qed.
Lemma scores_subset : scores plain_numerator plain_denominator [mk_micro_row 1 1 10; mk_micro_row 2 3 20]%Z = Some [8; 18] /\
  scores plain_numerator plain_denominator [mk_micro_row 1 1 10]%Z = Some [9].
Proof.
  assert (E : scores plain_numerator plain_denominator [mk_micro_row 1 1 10; mk_micro_row 2 3 20]%Z = Some [10 / 1 - (1 + (3 + 0)) / (1 + (1 + 0)); 20 / 1 - (1 + (3 + 0)) / (1 + (1 + 0))]) by reflexivity.
  assert (F : scores plain_numerator plain_denominator [mk_micro_row 1 1 10]%Z = Some [10 / 1 - (1 + 0) / (1 + 0)]) by reflexivity.
  rewrite E, F. split; f_equal; f_equal; try field; f_equal; field.
Qed.
