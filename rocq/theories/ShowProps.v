(** Theorems about tables of parameters and labels of theta: C154, C155. *)
From Coq Require Import Reals Ascii String List Arith Bool Lia Lra.
From Verif Require Import FltModel ParamsModel ParamsProofs ParamsProps TableModel TableSpec FormatModel FormatSpec FormatProps ShowModel ShowSpec ShowProofs.
From Verif Require DerivModel.
Import ListNotations.

(* ---------- C154: tables of parameters ---------- *)

(** Nonlinear coefficients.  There is a column of types exactly if some random coefficient is not linear, and a block for Sigma Squared exactly if
    it was given and some element below sigma's diagonal is not zero.  Values are in every row, or in every third row if there are standard errors. *)
Theorem C154_values digits L ps title sigma pi squared sigma_se pi_se squared_se :
  let K2 := length (sigma_labels L) in let D := length (pi_labels L) in
  length (types L) = K2 -> has_shape sigma K2 K2 -> has_shape pi K2 D -> optional_shape squared K2 K2 ->
  let T := nonlinear_table digits L ps title sigma pi squared sigma_se pi_se squared_se in
  let values := fun i => nth ((if is_some sigma_se then 3 else 1) * i) (t_rows T) [] in
  exists with_types with_squared, (with_types = true <-> some_nonlinear L) /\ (with_squared = true <-> some_covariance ps /\ squared <> None) /\
    length (t_rows T) = (if is_some sigma_se then 3 * K2 - 1 else K2) /\
    length (t_header T) = sigma_start with_types + (1 + K2) + (if with_squared then 1 + K2 else 0) + (match D with 0 => 0 | _ => 1 + D end) /\
    (with_types = true -> forall i t, nth_error (types L) i = Some t -> nth_error (t_header T) 0 = Some (lit "Types:") /\ exists name, nth_error (values i) 0 = Some name /\ names_type t name) /\
    shows (t_header T) values (sigma_start with_types) (lit "Sigma:") (sigma_labels L) (sigma_labels L)
      (lower_only (fun i j => format_number digits (entry sigma i j))) /\
    (forall q, with_squared = true -> squared = Some q ->
      shows (t_header T) values (squared_start with_types K2) (lit "Sigma Squared:") (sigma_labels L) (sigma_labels L) (fun i j => format_number digits (entry q i j))) /\
    (D <> 0 -> shows (t_header T) values (pi_start with_types K2 with_squared) (lit "Pi:") (pi_labels L) (sigma_labels L) (fun i j => format_number digits (entry pi i j))) /\
    (forall c, In c (t_lines T) <-> (with_types = true /\ c + 1 = sigma_start with_types) \/ (with_squared = true /\ c + 1 = squared_start with_types K2) \/
                                    (D <> 0 /\ c + 1 = pi_start with_types K2 with_squared)).
Proof.
  intros K2 D HT HS HP HQ T values. exists (types_column L), (shown ps squared). split; [apply types_column_iff|]. split.
  { unfold shown, shown_squared. rewrite <- diagonal_iff. destruct (diagonal_sigma ps); cbn [is_some].
    - split; [discriminate|]. intros [E _]. discriminate E.
    - destruct squared; cbn; split; try discriminate; auto; [intros _; split; [reflexivity|discriminate]|intros [_ N]; congruence]. }
  assert (DZ : forall A (x y : A), match pi_labels L with [] => x | _ => y end = match D with 0 => x | _ => y end) by (intros; unfold D; destruct (pi_labels L); reflexivity).
  assert (NZ : D <> 0 -> pi_labels L <> []) by (unfold D; destruct (pi_labels L); [cbn; congruence|discriminate]).
  split; [eapply (rows_length digits L ps sigma pi squared sigma_se pi_se squared_se); eassumption|].
  split; [unfold T; rewrite <- DZ; exact (header_length digits L ps sigma pi squared sigma_se pi_se squared_se)|].
  split. { intros C i t Ht. assert (A : nth_error (t_header T) 0 = Some (lit "Types:") /\ nth_error (values i) 0 = Some (type_title t))
      by (eapply (types_shown digits L ps sigma pi squared sigma_se pi_se squared_se); eassumption). destruct A as [A B].
    split; [exact A|]. exists (type_title t). split; [exact B|]. unfold names_type. destruct t; cbn; auto. }
  split; [eapply (sigma_shown digits L ps sigma pi squared sigma_se pi_se squared_se); eassumption|].
  split. { intros q W E. eapply (squared_shown digits L ps sigma pi squared sigma_se pi_se squared_se); try eassumption.
    unfold shown, shown_squared in *. destruct (diagonal_sigma ps); [discriminate W|exact E]. }
  split. { intros N. eapply (pi_shown digits L ps sigma pi squared sigma_se pi_se squared_se); try eassumption. exact (NZ N). }
  intros c. unfold T. cbn [nonlinear_table t_lines]. unfold nonlinear_lines. rewrite !in_app_iff. fold (shown ps squared).
  unfold pi_start, squared_start, sigma_start, D. fold K2.
  destruct (types_column L), (shown ps squared), (pi_labels L); cbn [In length]; intuition (try lia; try discriminate).
Qed.
Print Assumptions C154_values.

(** Standard errors are in rows below values, and blank for parameters that are not estimated.  Rows between them and the next values are blank. *)
Theorem C154_errors digits L ps title sigma pi squared sigma_se pi_se squared_se s p :
  let K2 := length (sigma_labels L) in let D := length (pi_labels L) in
  length (types L) = K2 -> has_shape sigma K2 K2 -> has_shape pi K2 D ->
  sigma_se = Some s -> pi_se = Some p -> has_shape s K2 K2 -> has_shape p K2 D ->
  optional_shape squared K2 K2 -> optional_shape squared_se K2 K2 -> is_some squared = is_some squared_se ->
  let T := nonlinear_table digits L ps title sigma pi squared sigma_se pi_se squared_se in
  let errors := fun i => nth (3 * i + 1) (t_rows T) [] in
  exists with_types with_squared, (with_types = true <-> some_nonlinear L) /\ (with_squared = true <-> some_covariance ps /\ squared <> None) /\
    shows (t_header T) errors (sigma_start with_types) (lit "Sigma:") (sigma_labels L) (map (fun _ => []) (sigma_labels L))
      (lower_only (only_in (unfixed ps) Sigma (fun i j => format_se digits (entry s i j)))) /\
    (forall q, with_squared = true -> squared_se = Some q ->
      shows (t_header T) errors (squared_start with_types K2) (lit "Sigma Squared:") (sigma_labels L) (map (fun _ => []) (sigma_labels L)) (fun i j => format_se digits (entry q i j))) /\
    (D <> 0 -> shows (t_header T) errors (pi_start with_types K2 with_squared) (lit "Pi:") (pi_labels L) (map (fun _ => []) (sigma_labels L))
      (only_in (unfixed ps) Pi (fun i j => format_se digits (entry p i j)))) /\
    forall i, i + 1 < K2 -> nth (3 * i + 2) (t_rows T) [] = repeat [] (length (t_header T)).
Proof.
  intros K2 D HT HS HP Es Ep Hs Hp HQ HQE QQ T errors. exists (types_column L), (shown ps squared). split; [apply types_column_iff|]. split.
  { unfold shown, shown_squared. rewrite <- diagonal_iff. destruct (diagonal_sigma ps); cbn [is_some].
    - split; [discriminate|]. intros [E _]. discriminate E.
    - destruct squared; cbn; split; try discriminate; auto; [intros _; split; [reflexivity|discriminate]|intros [_ N]; congruence]. }
  assert (NZ : D <> 0 -> pi_labels L <> []) by (unfold D; destruct (pi_labels L); [cbn; congruence|discriminate]).
  split; [eapply (sigma_errors_shown digits L ps sigma pi squared sigma_se pi_se squared_se); eassumption|].
  split. { intros q W E. eapply (squared_errors_shown digits L ps sigma pi squared sigma_se pi_se squared_se); try eassumption.
    unfold shown, shown_squared in *. destruct (diagonal_sigma ps); [discriminate W|exact E]. }
  split. { intros N. eapply (pi_errors_shown digits L ps sigma pi squared sigma_se pi_se squared_se); try eassumption. exact (NZ N). }
  intros i Hi. eapply (blank_rows digits L ps sigma pi squared sigma_se pi_se squared_se); eassumption.
Qed.
Print Assumptions C154_errors.

(** Rho, beta and gamma: each value is below its label, and its standard error is below it.  Whether the latter is blank is C70. *)
Theorem C154_vectors digits L ps title v se j : ncols v = 1 -> optional_shape se (nrows v) 1 -> j < nrows v ->
  (forall T label k printed,
    (T = rho_table digits L ps title v se /\ (nrows v = 1 /\ label = lit "All Groups" \/ 1 < nrows v /\ length (rho_labels L) = nrows v /\ nth_error (rho_labels L) j = Some label) /\ k = Rho /\ printed = rho_se_printed ps j \/
     T = beta_table digits L ps title v se /\ length (beta_labels L) = nrows v /\ nth_error (beta_labels L) j = Some label /\ k = Beta /\ printed = beta_se_printed ps j \/
     T = gamma_table digits L ps title v se /\ length (gamma_labels L) = nrows v /\ nth_error (gamma_labels L) j = Some label /\ k = Gamma /\ printed = gamma_se_printed ps j) ->
    nth_error (t_header T) j = Some label /\ length (t_header T) = nrows v /\
    nth_error (nth 0 (t_rows T) []) j = Some (format_number digits (entry v j 0)) /\
    match se with
    | Some s => length (t_rows T) = 2 /\ nth_error (nth 1 (t_rows T) []) j = Some (if printed then format_se digits (entry s j 0) else [])
    | None => length (t_rows T) = 1
    end).
Proof.
  intros C S0 Hj T label k printed H.
  destruct H as [(-> & H & -> & ->)|[(-> & H & Hl & -> & ->)|(-> & H & Hl & -> & ->)]].
  - unfold rho_table. assert (SZ : size v = nrows v) by (unfold size; rewrite C; lia). rewrite SZ.
    destruct H as [[E ->]|(B & E & Hl)].
    + rewrite (proj2 (Nat.ltb_ge 1 (nrows v))) by lia. destruct (vector_shown digits ps (lit "Rho " ++ title) Rho [lit "All Groups"] v se j C S0) as (A & V & R); [cbn; lia|exact Hj|].
      split; [|split; [cbn; lia|split; [exact V|exact R]]]. assert (j = 0) by lia. subst j. reflexivity.
    + rewrite (proj2 (Nat.ltb_lt 1 (nrows v))) by lia. destruct (vector_shown digits ps (lit "Rho " ++ title) Rho (rho_labels L) v se j C S0 E Hj) as (A & V & R).
      split; [exact Hl|]. split; [exact E|]. split; [exact V|exact R].
  - destruct (vector_shown digits ps (lit "Beta " ++ title) Beta (beta_labels L) v se j C S0 H Hj) as (A & V & R).
    split; [exact Hl|]. split; [exact H|]. split; [exact V|exact R].
  - destruct (vector_shown digits ps (lit "Gamma " ++ title) Beta (gamma_labels L) v se j C S0 H Hj) as (A & V & R).
    split; [exact Hl|]. split; [exact H|]. split; [exact V|exact R].
Qed.
Print Assumptions C154_vectors.

(** Phi, when it is a matrix. *)
Theorem C154_phi digits L ps title phi se : let n := length (phi_labels L) in
  size phi <> 1 -> has_shape phi n n -> optional_shape se n n ->
  let T := phi_table digits L ps title phi se in
  shows (t_header T) (fun i => nth ((if is_some se then 2 else 1) * i) (t_rows T) []) 0 [] (phi_labels L) (phi_labels L) (fun i j => format_number digits (entry phi i j)) /\
  forall s, se = Some s ->
    shows (t_header T) (fun i => nth (2 * i + 1) (t_rows T) []) 0 [] (phi_labels L) (map (fun _ => []) (phi_labels L))
      (except_in (fixed ps) Phi (fun i j => format_se digits (entry s i j))).
Proof. exact (phi_shown digits L ps title phi se). Qed.
Print Assumptions C154_phi.

(** Which tables of estimates are displayed: those of matrices that are not empty.  They show the elements of these matrices and their standard errors. *)
Theorem C154_estimates digits L ps title v se squared squared_se :
  let K2 := length (sigma_labels L) in let D := length (pi_labels L) in
  length (types L) = K2 -> has_shape (v Sigma) K2 K2 -> has_shape (v Pi) K2 D -> has_shape (se Sigma) K2 K2 -> has_shape (se Pi) K2 D -> has_shape squared K2 K2 -> has_shape squared_se K2 K2 ->
  (forall k, k = Rho \/ k = Beta \/ k = Gamma -> ncols (v k) = 1 /\ has_shape (se k) (nrows (v k)) 1) ->
  (nrows (v Rho) <= 1 \/ nrows (v Rho) = length (rho_labels L)) -> nrows (v Beta) = length (beta_labels L) -> nrows (v Gamma) = length (gamma_labels L) ->
  let tables := estimate_tables digits L ps title v se squared squared_se in
  map t_title tables = flat_map (fun kn : kind * text => if 0 <? nrows (v (fst kn)) * ncols (v (fst kn)) then [snd kn ++ title] else [])
    [(Sigma, lit "Nonlinear Coefficient "); (Rho, lit "Rho "); (Phi, lit "Phi "); (Beta, lit "Beta "); (Gamma, lit "Gamma ")] /\
  (forall T, In T tables -> t_title T = lit "Nonlinear Coefficient " ++ title -> forall i, i < K2 ->
    let values := nth (3 * i) (t_rows T) [] in let errors := nth (3 * i + 1) (t_rows T) [] in
    exists p p', nth_error (t_header T) p = Some (lit "Sigma:") /\
      (forall j, j <= i -> nth_error values (p + 1 + j) = Some (format_number digits (entry (v Sigma) i j)) /\
        (In (Sigma, (i, j)) (unfixed ps) -> nth_error errors (p + 1 + j) = Some (format_se digits (entry (se Sigma) i j)))) /\
      (D <> 0 -> nth_error (t_header T) p' = Some (lit "Pi:")) /\
      (forall j, j < D -> nth_error values (p' + 1 + j) = Some (format_number digits (entry (v Pi) i j)) /\
        (In (Pi, (i, j)) (unfixed ps) -> nth_error errors (p' + 1 + j) = Some (format_se digits (entry (se Pi) i j)))) /\
      (some_covariance ps -> exists p'', nth_error (t_header T) p'' = Some (lit "Sigma Squared:") /\
        forall j, j < K2 -> nth_error values (p'' + 1 + j) = Some (format_number digits (entry squared i j)) /\
                            nth_error errors (p'' + 1 + j) = Some (format_se digits (entry squared_se i j)))) /\
  forall T k name printed, In T tables -> t_title T = name ++ title -> In (k, name, printed) [(Rho, lit "Rho ", rho_se_printed ps); (Beta, lit "Beta ", beta_se_printed ps); (Gamma, lit "Gamma ", gamma_se_printed ps)] ->
    forall j, j < nrows (v k) -> nth_error (nth 0 (t_rows T) []) j = Some (format_number digits (entry (v k) j 0)) /\
      nth_error (nth 1 (t_rows T) []) j = Some (if printed j then format_se digits (entry (se k) j 0) else []).
Proof.
  intros K2 D HT HS HP HSE HPE HQ HQE HV LR LB LG tables. split; [|split].
  - unfold tables, estimate_tables, phi_table. cbn [flat_map fst snd]. fold (size (v Sigma)) (size (v Rho)) (size (v Phi)) (size (v Beta)) (size (v Gamma)).
    rewrite !map_app. destruct (0 <? size (v Sigma)), (0 <? size (v Rho)), (0 <? size (v Phi)), (0 <? size (v Beta)), (0 <? size (v Gamma)), (size (v Phi) =? 1); reflexivity.
  - intros T I ET i Hi values errors.
    assert (E : T = nonlinear_table digits L ps title (v Sigma) (v Pi) (Some squared) (Some (se Sigma)) (Some (se Pi)) (Some squared_se)).
    { unfold tables, estimate_tables, phi_table in I. rewrite !in_app_iff in I.
      destruct I as [I|[I|[I|[I|I]]]]; [destruct (0 <? size (v Sigma))|destruct (0 <? size (v Rho))|destruct (0 <? size (v Phi))|destruct (0 <? size (v Beta))|destruct (0 <? size (v Gamma))];
        try (destruct I as [I|[]]); try contradiction I; try (symmetry; exact I); exfalso; try destruct (size (v Phi) =? 1); rewrite <- I in ET; cbn in ET; discriminate ET. }
    destruct (nth_error (sigma_labels L) i) as [l|] eqn:Hl; [|apply nth_error_None in Hl; unfold K2 in Hi; lia].
    destruct (C154_values digits L ps title (v Sigma) (v Pi) (Some squared) (Some (se Sigma)) (Some (se Pi)) (Some squared_se) HT HS HP HQ)
      as (wt & ws & Wt & Ws & _ & _ & _ & (S1 & _ & S3) & Q & P & _).
    destruct (C154_errors digits L ps title (v Sigma) (v Pi) (Some squared) (Some (se Sigma)) (Some (se Pi)) (Some squared_se) (se Sigma) (se Pi) HT HS HP eq_refl eq_refl HSE HPE HQ HQE eq_refl)
      as (wt' & ws' & Wt' & Ws' & (_ & _ & S3') & Q' & P' & _).
    assert (wt' = wt) as -> by (destruct wt, wt'; try reflexivity; [apply Wt', Wt; reflexivity|symmetry; apply Wt, Wt'; reflexivity]).
    assert (ws' = ws) as -> by (destruct ws, ws'; try reflexivity; [apply Ws', Ws; reflexivity|symmetry; apply Ws, Ws'; reflexivity]).
    assert (Hl' : nth_error (map (fun _ : text => @nil ascii) (sigma_labels L)) i = Some []) by (rewrite nth_error_map, Hl; reflexivity).
    rewrite <- E in *. cbn [is_some] in *. specialize (S3 i l Hl). specialize (S3' i [] Hl').
    exists (sigma_start wt), (pi_start wt K2 ws). split; [exact S1|]. split; [|split; [|split]].
    + intros j Hj. split.
      * unfold values. rewrite (proj2 S3) by (unfold K2 in Hi; lia). unfold lower_only. rewrite (proj2 (Nat.leb_le j i) Hj). reflexivity.
      * intros U. unfold errors. rewrite (proj2 S3') by (unfold K2 in Hi; lia). unfold lower_only, only_in. rewrite (proj2 (Nat.leb_le j i) Hj).
        destruct (in_dec parameter_eq_dec (Sigma, (i, j)) (unfixed ps)); [reflexivity|contradiction].
    + intros N. exact (proj1 (P N)).
    + intros j Hj. assert (N : length (pi_labels L) <> 0) by (unfold D in Hj; lia). destruct (P N) as (_ & _ & P3). destruct (P' N) as (_ & _ & P3'). split.
      * exact (proj2 (P3 i l Hl) j Hj).
      * intros U. refine (eq_trans (proj2 (P3' i [] Hl') j Hj) _). unfold only_in. destruct (in_dec parameter_eq_dec (Pi, (i, j)) (unfixed ps)); [reflexivity|contradiction].
    + intros C. assert (W : ws = true) by (apply Ws; split; [exact C|discriminate]). destruct (Q squared W eq_refl) as (Q1 & _ & Q3). destruct (Q' squared_se W eq_refl) as (_ & _ & Q3').
      exists (squared_start wt K2). split; [exact Q1|]. intros j Hj. split; [exact (proj2 (Q3 i l Hl) j Hj)|exact (proj2 (Q3' i [] Hl') j Hj)].
  - intros T k name printed I ET Hk j Hj.
    assert (O : forall k, k = Rho \/ k = Beta \/ k = Gamma -> j < nrows (v k) -> forall header name' k', length header = nrows (v k) ->
      T = vector_table digits ps name' k' header (v k) (Some (se k)) -> nth_error (nth 0 (t_rows T) []) j = Some (format_number digits (entry (v k) j 0)) /\
        nth_error (nth 1 (t_rows T) []) j = Some (if vector_se_printed ps k' j then format_se digits (entry (se k) j 0) else [])).
    { intros k0 K0 Hj0 header name' k' LH ->. destruct (HV k0 K0) as [C SH].
      destruct (vector_shown digits ps name' k' header (v k0) (Some (se k0)) j C SH LH Hj0) as (_ & A & _ & B). split; [exact A|exact B]. }
    assert (RT : forall T', In T' tables -> t_title T' = lit "Rho " ++ title -> T' = rho_table digits L ps title (v Rho) (Some (se Rho))).
    { intros T' I' ET'. unfold tables, estimate_tables, phi_table in I'. rewrite !in_app_iff in I'.
      destruct I' as [I'|[I'|[I'|[I'|I']]]]; [destruct (0 <? size (v Sigma))|destruct (0 <? size (v Rho))|destruct (0 <? size (v Phi))|destruct (0 <? size (v Beta))|destruct (0 <? size (v Gamma))];
        try (destruct I' as [I'|[]]); try contradiction I'; try (symmetry; exact I'); exfalso; try destruct (size (v Phi) =? 1); rewrite <- I' in ET'; cbn in ET'; discriminate ET'. }
    assert (BT : forall T', In T' tables -> t_title T' = lit "Beta " ++ title -> T' = beta_table digits L ps title (v Beta) (Some (se Beta))).
    { intros T' I' ET'. unfold tables, estimate_tables, phi_table in I'. rewrite !in_app_iff in I'.
      destruct I' as [I'|[I'|[I'|[I'|I']]]]; [destruct (0 <? size (v Sigma))|destruct (0 <? size (v Rho))|destruct (0 <? size (v Phi))|destruct (0 <? size (v Beta))|destruct (0 <? size (v Gamma))];
        try (destruct I' as [I'|[]]); try contradiction I'; try (symmetry; exact I'); exfalso; try destruct (size (v Phi) =? 1); rewrite <- I' in ET'; cbn in ET'; discriminate ET'. }
    assert (GT : forall T', In T' tables -> t_title T' = lit "Gamma " ++ title -> T' = gamma_table digits L ps title (v Gamma) (Some (se Gamma))).
    { intros T' I' ET'. unfold tables, estimate_tables, phi_table in I'. rewrite !in_app_iff in I'.
      destruct I' as [I'|[I'|[I'|[I'|I']]]]; [destruct (0 <? size (v Sigma))|destruct (0 <? size (v Rho))|destruct (0 <? size (v Phi))|destruct (0 <? size (v Beta))|destruct (0 <? size (v Gamma))];
        try (destruct I' as [I'|[]]); try contradiction I'; try (symmetry; exact I'); exfalso; try destruct (size (v Phi) =? 1); rewrite <- I' in ET'; cbn in ET'; discriminate ET'. }
    cbn [In] in Hk. destruct Hk as [Hk|[Hk|[Hk|[]]]]; injection Hk as <- <- <-.
    + refine (O Rho (or_introl eq_refl) Hj _ _ Rho _ (RT T I ET)). unfold size. rewrite (proj1 (HV Rho (or_introl eq_refl))), Nat.mul_1_r.
      destruct (Nat.ltb_spec 1 (nrows (v Rho))); [destruct LR; [lia|symmetry; assumption]|cbn; lia].
    + refine (O Beta (or_intror (or_introl eq_refl)) Hj _ _ Beta _ (BT T I ET)). symmetry. exact LB.
    + refine (O Gamma (or_intror (or_intror eq_refl)) Hj _ _ Beta _ (GT T I ET)). symmetry. exact LG.
Qed.
Print Assumptions C154_estimates.

(** Tables of initial values and bounds are of kinds that have parameters that are fixed or in theta; concentrated out parameters do not count. *)
Theorem C154_theta digits L ps title v squared k name : let there := fun k => exists i j, In (k, (i, j)) (fixed ps ++ unfixed ps) in
  In (k, name) [(Sigma, lit "Nonlinear Coefficient "); (Pi, lit "Nonlinear Coefficient "); (Rho, lit "Rho "); (Phi, lit "Phi "); (Beta, lit "Beta "); (Gamma, lit "Gamma ")] ->
  let tables := theta_tables digits L ps title v squared in
  (there k -> exists T, In T tables /\ t_title T = name ++ title /\
    T = match k with
        | Sigma | Pi => nonlinear_table digits L ps title (v Sigma) (v Pi) squared None None None
        | Rho => rho_table digits L ps title (v Rho) None
        | Phi => phi_table digits L ps title (v Phi) None
        | Beta => beta_table digits L ps title (v Beta) None
        | Gamma => gamma_table digits L ps title (v Gamma) None
        end) /\
  ((exists T, In T tables /\ t_title T = name ++ title) -> there k \/ (k = Sigma /\ there Pi) \/ (k = Pi /\ there Sigma)).
Proof.
  intros there Hk tables.
  assert (B : forall k, has_kind ps k = true <-> there k).
  { intros k0. unfold has_kind, there. rewrite existsb_exists. split.
    - intros ([k1 [i j]] & I & E). unfold is_kind in E. cbn [fst] in E. destruct (kind_eq_dec k1 k0) as [->|]; [|discriminate E]. exists i, j. exact I.
    - intros (i & j & I). exists (k0, (i, j)). split; [exact I|]. unfold is_kind. cbn [fst]. destruct (kind_eq_dec k0 k0); [reflexivity|contradiction]. }
  pose proof (B Sigma) as B1. pose proof (B Pi) as B2. pose proof (B Rho) as B3. pose proof (B Phi) as B4. pose proof (B Beta) as B5. pose proof (B Gamma) as B6. clear B.
  assert (PT : t_title (phi_table digits L ps title (v Phi) None) = lit "Phi " ++ title) by (unfold phi_table; destruct (size (v Phi) =? 1); reflexivity).
  split.
  - intros H. unfold tables, theta_tables. eexists. split; [|split; [|reflexivity]].
    + rewrite !in_app_iff. cbn [In] in Hk.
      destruct Hk as [E|[E|[E|[E|[E|[E|[]]]]]]]; injection E as <- <-.
      * left. rewrite (proj2 B1 H). left. reflexivity.
      * left. rewrite (proj2 B2 H). rewrite orb_true_r. left. reflexivity.
      * right. left. rewrite (proj2 B3 H). left. reflexivity.
      * right. right. left. rewrite (proj2 B4 H). left. reflexivity.
      * right. right. right. left. rewrite (proj2 B5 H). left. reflexivity.
      * right. right. right. right. rewrite (proj2 B6 H). left. reflexivity.
    + cbn [In] in Hk. destruct Hk as [E|[E|[E|[E|[E|[E|[]]]]]]]; injection E as <- <-; try reflexivity. exact PT.
  - intros (T & I & ET). unfold tables, theta_tables in I. rewrite !in_app_iff in I.
    destruct I as [I|[I|[I|[I|I]]]].
    + destruct (has_kind ps Sigma || has_kind ps Pi)%bool eqn:E; [|destruct I]. destruct I as [<-|[]]. apply orb_true_iff in E.
      cbn [In] in Hk. destruct Hk as [Ek|[Ek|[Ek|[Ek|[Ek|[Ek|[]]]]]]]; injection Ek as <- <-; try discriminate ET; destruct E as [E|E];
        ((apply B1 in E || apply B2 in E); auto).
    + destruct (has_kind ps Rho) eqn:E; [|destruct I]. destruct I as [<-|[]]. cbn [In] in Hk.
      destruct Hk as [Ek|[Ek|[Ek|[Ek|[Ek|[Ek|[]]]]]]]; injection Ek as <- <-; try discriminate ET. left. apply B3. reflexivity.
    + destruct (has_kind ps Phi) eqn:E; [|destruct I]. destruct I as [<-|[]]. rewrite PT in ET. cbn [In] in Hk.
      destruct Hk as [Ek|[Ek|[Ek|[Ek|[Ek|[Ek|[]]]]]]]; injection Ek as <- <-; try discriminate ET. left. apply B4. reflexivity.
    + destruct (has_kind ps Beta) eqn:E; [|destruct I]. destruct I as [<-|[]]. cbn [In] in Hk.
      destruct Hk as [Ek|[Ek|[Ek|[Ek|[Ek|[Ek|[]]]]]]]; injection Ek as <- <-; try discriminate ET. left. apply B5. reflexivity.
    + destruct (has_kind ps Gamma) eqn:E; [|destruct I]. destruct I as [<-|[]]. cbn [In] in Hk.
      destruct Hk as [Ek|[Ek|[Ek|[Ek|[Ek|[Ek|[]]]]]]]; injection Ek as <- <-; try discriminate ET. left. apply B6. reflexivity.
Qed.
Print Assumptions C154_theta.

(** Tables of estimates can be read if labels are not empty and are on one line. *)
Theorem C154_readable digits L ps title v se squared squared_se T :
  let K2 := length (sigma_labels L) in let D := length (pi_labels L) in
  length (types L) = K2 -> has_shape (v Sigma) K2 K2 -> has_shape (v Pi) K2 D -> has_shape (se Pi) K2 D -> has_shape squared K2 K2 -> has_shape squared_se K2 K2 ->
  (size (v Rho) = 1 \/ size (v Rho) = length (rho_labels L)) -> size (v Beta) = length (beta_labels L) -> size (v Gamma) = length (gamma_labels L) ->
  (forall k, size (se k) = size (v k)) -> (size (v Phi) = 0 \/ size (v Phi) = 1 /\ length (phi_labels L) = 1 \/
    1 < length (phi_labels L) /\ has_shape (v Phi) (length (phi_labels L)) (length (phi_labels L)) /\ has_shape (se Phi) (length (phi_labels L)) (length (phi_labels L))) ->
  proper (sigma_labels L) -> proper (pi_labels L) -> proper (rho_labels L) -> proper (phi_labels L) -> proper (beta_labels L) -> proper (gamma_labels L) -> on_one_line title ->
  In T (estimate_tables digits L ps title v se squared squared_se) ->
  (forall r, In r (t_rows T) -> length r = length (t_header T)) /\ readable T.
Proof.
  intros K2 D HT HS HP HPE HQ HQE SR SB SG SE SP PS PPi PR PP PB PG Ht I. unfold estimate_tables in I. rewrite !in_app_iff in I.
  assert (OT : forall s : text, on_one_line s -> on_one_line (s ++ title)) by (intros s A B; apply in_app_iff in B; destruct B as [B|B]; [exact (A B)|exact (Ht B)]).
  assert (LEN : forall l : list text, 0 < length l -> l <> []) by (intros [|x l] B; [cbn in B; lia|discriminate]).
  destruct I as [I|[I|[I|[I|I]]]].
  - destruct (0 <? size (v Sigma)); [|destruct I]. destruct I as [<-|[]].
    apply (nonlinear_readable digits L ps title (v Sigma) (v Pi) (Some squared) (Some (se Sigma)) (Some (se Pi)) (Some squared_se)); try assumption.
    intros s _. split; [reflexivity|]. exists (se Pi). split; [reflexivity|exact HPE].
  - destruct (Nat.ltb_spec 0 (size (v Rho))) as [B|]; [|destruct I]. destruct I as [<-|[]]. unfold rho_table.
    destruct (Nat.ltb_spec 1 (size (v Rho))) as [B1|B1].
    + assert (SR' : size (v Rho) = length (rho_labels L)) by lia. apply vector_readable; [apply LEN; lia|lia|intros s [= <-]; apply SE|exact PR|].
      apply OT. unfold on_one_line. cbn. intuition discriminate.
    + apply vector_readable; [discriminate|cbn; lia|intros s [= <-]; apply SE| |].
      * intros s [<-|[]]. split; [discriminate|]. unfold on_one_line. cbn. intuition discriminate.
      * apply OT. unfold on_one_line. cbn. intuition discriminate.
  - destruct (Nat.ltb_spec 0 (size (v Phi))) as [B|]; [|destruct I]. destruct I as [<-|[]]. destruct SP as [SP|[[SP LP]|(LP & SP & SS)]]; [lia| |apply phi_readable; assumption].
    unfold phi_table. rewrite SP. cbn [Nat.eqb]. apply vector_readable; [apply LEN; lia|lia|intros s [= <-]; apply SE|exact PP|].
    apply OT. unfold on_one_line. cbn. intuition discriminate.
  - destruct (Nat.ltb_spec 0 (size (v Beta))) as [B|]; [|destruct I]. destruct I as [<-|[]]. apply vector_readable; [apply LEN; lia|lia|intros s [= <-]; apply SE|exact PB|].
    apply OT. unfold on_one_line. cbn. intuition discriminate.
  - destruct (Nat.ltb_spec 0 (size (v Gamma))) as [B|]; [|destruct I]. destruct I as [<-|[]]. apply vector_readable; [apply LEN; lia|lia|intros s [= <-]; apply SE|exact PG|].
    apply OT. unfold on_one_line. cbn. intuition discriminate.
Qed.
Print Assumptions C154_readable.

(** What is read below a label in a table that can be read is nearest to the number among those with options.digits significant digits. *)
Theorem C154_read digits T i j x : (0 < digits)%nat -> readable T -> i < length (t_rows T) -> nth_error (nth i (t_rows T) []) j = Some (format_number digits (Num x)) ->
  exists s before after line dashes r, table_text T = Some s /\ lines_of s = before ++ dashes :: after /\ nth_error after i = Some line /\
    read_number (nth j (read_row dashes line) []) = Some r /\
    has_digits digits r /\ forall y, has_digits digits y -> (Rabs (r - x) <= Rabs (y - x))%R.
Proof.
  intros Hd (s & h & lines & dashes & E & LO & H & D) Hi Hc.
  destruct (C153_numbers digits x Hd) as (r & RN & RD & RB & _).
  assert (LL : length lines = length (t_rows T)) by (rewrite <- (map_length (read_row dashes)), D; apply map_length).
  exists s, [t_title T ++ lit ":"; repeat "="%char (length dashes); h], (lines ++ [repeat "="%char (length dashes)]), (nth i lines []), dashes, r.
  split; [exact E|]. split; [rewrite LO; reflexivity|]. split; [rewrite nth_error_app1 by lia; apply nth_error_nth'; lia|]. split; [|split; [exact RD|exact RB]].
  assert (Q : read_row dashes (nth i lines []) = stripped (nth i (t_rows T) [])).
  { rewrite <- (map_nth stripped). change (stripped []) with (@nil text). rewrite <- D.
    rewrite (nth_indep _ [] (read_row dashes [])) by (rewrite map_length; lia). rewrite (map_nth (read_row dashes)). reflexivity. }
  rewrite Q. unfold stripped. change (@nil ascii) with (strip []). rewrite map_nth.
  rewrite (nth_error_nth _ j _ Hc). rewrite (read_stripped digits x Hd). exact RN.
Qed.
Print Assumptions C154_read.

(* ---------- C155: labels of theta ---------- *)

(** Elements of theta and of its labels are of the same parameters in the same order. *)
Theorem C155_order L values shapes bv bounded nans ps n : initialize values shapes bv bounded nans = Some ps -> shapes Sigma = [(n, n)] ->
  length (theta_labels L ps) = length (compress ps) /\
  forall m k i j, nth_error (unfixed ps) m = Some (k, (i, j)) ->
    nth_error (compress ps) m = Some (entry (mat ps k) i j) /\
    nth_error (theta_labels L ps) m = Some
      match k with
      | Sigma => nth i (sigma_labels L) [] ++ lit " x " ++ nth j (sigma_labels L) []
      | Pi => nth i (sigma_labels L) [] ++ lit " x " ++ nth j (pi_labels L) []
      | Rho => nth i (rho_labels L) []
      | Phi => nth i (phi_labels L) [] ++ lit " on " ++ nth j (phi_labels L) []
      | Beta => nth i (beta_labels L) []
      | Gamma => nth i (gamma_labels L) []
      end.
Proof.
  intros H Hn. destruct (accepted_theta_labels L values shapes bv bounded nans ps n H Hn) as [E F]. rewrite E, F. split; [rewrite !map_length; reflexivity|].
  intros m k i j Hm. rewrite !nth_error_map, Hm. split; [reflexivity|]. destruct k; reflexivity.
Qed.
Print Assumptions C155_order.

(** If labels of each kind are distinct, and those that are put together have no spaces, different elements of theta of the same kind have
    different labels. *)
Theorem C155_distinct L values shapes bv bounded nans ps n : initialize values shapes bv bounded nans = Some ps -> shapes Sigma = [(n, n)] -> labelled L ps ->
  NoDup (sigma_labels L) -> NoDup (pi_labels L) -> NoDup (rho_labels L) -> NoDup (phi_labels L) -> NoDup (beta_labels L) -> NoDup (gamma_labels L) ->
  (forall s, In s (sigma_labels L) \/ In s (phi_labels L) -> ~ In blank s) ->
  forall a b k x y, nth_error (unfixed ps) a = Some (k, x) -> nth_error (unfixed ps) b = Some (k, y) -> a <> b ->
    nth_error (theta_labels L ps) a <> nth_error (theta_labels L ps) b.
Proof.
  intros H Hn HL NS NP NR NF NB NG NBL a b k [i j] [i' j'] Ha Hb Hab E.
  destruct (accepted_theta_labels L values shapes bv bounded nans ps n H Hn) as [E1 _]. rewrite E1, !nth_error_map, Ha, Hb in E. cbn [option_map label_of] in E.
  assert (HN : NoDup (unfixed ps)) by (eapply C23_distinct; eassumption).
  pose proof (HL k i j (nth_error_In _ _ Ha)) as B. pose proof (HL k i' j' (nth_error_In _ _ Hb)) as B'.
  assert (S0 : i = i' /\ j = j').
  { destruct k; cbn in B, B'; destruct B as [B1 B2]; destruct B' as [B1' B2']; injection E as E.
    - apply (pair_label_inj (sigma_labels L) (sigma_labels L) (lit "x ")); auto.
    - apply (pair_label_inj (sigma_labels L) (pi_labels L) (lit "x ")); auto.
    - split; [exact (nodup_nth_inj _ i i' NR B1 B1' E)|congruence].
    - apply (pair_label_inj (phi_labels L) (phi_labels L) (lit "on ")); auto.
    - split; [exact (nodup_nth_inj _ i i' NB B1 B1' E)|congruence].
    - split; [exact (nodup_nth_inj _ i i' NG B1 B1' E)|congruence]. }
  destruct S0 as [-> ->]. apply Hab. apply (proj1 (NoDup_nth_error (unfixed ps)) HN); [apply nth_error_Some; rewrite Ha; discriminate|congruence].
Qed.
Print Assumptions C155_distinct.

Definition example_labels : labels :=
  {| sigma_labels := [lit "1"; lit "x"]; pi_labels := [lit "income"]; rho_labels := []; phi_labels := [lit "Xi"; lit "Omega"];
     beta_labels := [lit "1"; lit "x"]; gamma_labels := [lit "1"; lit "x"]; types := [DerivModel.RCLinear; DerivModel.RCLog] |}.
(** Labels do not identify elements of theta: coefficients on the same variable in beta and gamma have the same one, even though labels of each
    are distinct. *)
Theorem C155_distinct_refuted : exists L values shapes bv bounded nans ps n a b,
  initialize values shapes bv bounded nans = Some ps /\ shapes Sigma = [(n, n)] /\
  NoDup (sigma_labels L) /\ NoDup (pi_labels L) /\ NoDup (beta_labels L) /\ NoDup (gamma_labels L) /\
  nth_error (unfixed ps) a = Some (Beta, (1, 0)) /\ nth_error (unfixed ps) b = Some (Gamma, (1, 0)) /\
  nth_error (theta_labels L ps) a = Some (lit "x") /\ nth_error (theta_labels L ps) b = Some (lit "x").
Proof.
  destruct example_accepted as (ps & H & U & _). exists example_labels, example_values, example_shapes, example_bounds, true, true, ps, 2, 3, 4.
  split; [exact H|]. split; [reflexivity|].
  assert (ND : NoDup [lit "1"; lit "x"]) by (repeat constructor; cbn; intuition discriminate).
  split; [exact ND|]. split; [repeat constructor; cbn; intuition discriminate|]. split; [exact ND|]. split; [exact ND|].
  unfold theta_labels. rewrite U. repeat split.
Qed.
Print Assumptions C155_distinct_refuted.

(** Nor do they say what rho in all groups is: its label is that of the first group, whereas its table says All Groups. *)
Definition common_values (k : kind) : option matrix :=
  match k with Rho => Some {| nrows := 1; ncols := 1; entry := fun _ _ => Num (1 / 2) |} | _ => None end.
Definition common_shapes (k : kind) : list (nat * nat) := match k with Sigma => [(0, 0)] | Pi => [(0, 0)] | Rho => [(2, 1); (1, 1)] | Phi => [(1, 0)] | _ => [(0, 1)] end.
Definition group_labels : labels :=
  {| sigma_labels := []; pi_labels := []; rho_labels := [lit "cars"; lit "trucks"]; phi_labels := [lit "Xi"]; beta_labels := []; gamma_labels := []; types := [] |}.
Theorem C155_all_groups_refuted : exists L values shapes bv bounded nans ps digits,
  initialize values shapes bv bounded nans = Some ps /\ shapes Rho = [(length (rho_labels L), 1); (1, 1)] /\ nrows (mat ps Rho) = 1 /\
  unfixed ps = [(Rho, (0, 0))] /\ theta_labels L ps = [lit "cars"] /\ t_header (rho_table digits L ps [] (mat ps Rho) None) = [lit "All Groups"].
Proof.
  assert (A : exists ps, initialize common_values common_shapes (fun _ => None) false true = Some ps /\ unfixed ps = [(Rho, (0, 0))] /\ nrows (mat ps Rho) = 1 /\ ncols (mat ps Rho) = 1).
  { unfold initialize, validated_bounds, validated, initialize_matrix. cbn -[rltb reqb Rdiv IZR finish]. decide_reals. cbn -[rltb reqb Rdiv IZR finish].
    eexists. split; [reflexivity|]. unfold finish. cbn -[rltb reqb Rdiv IZR]. decide_reals. cbn -[rltb reqb Rdiv IZR]. auto. }
  destruct A as (ps & H & U & R & C). exists group_labels, common_values, common_shapes, (fun _ => None), false, true, ps, 7. split; [exact H|]. split; [reflexivity|].
  split; [exact R|]. split; [exact U|]. split; [unfold theta_labels; rewrite U; reflexivity|].
  unfold rho_table, size. cbn [vector_table t_header]. rewrite R, C. reflexivity.
Qed.
Print Assumptions C155_all_groups_refuted.

(* ---------- Examples ---------- *)

Definition shaped (r c : nat) (f : nat -> nat -> flt) : matrix := {| nrows := r; ncols := c; entry := f |}.
(** Two random coefficients, one of them lognormal, and a demographic: what is displayed when sigma's second element is estimated. *)
Example C154_applies : length (types example_labels) = length (sigma_labels example_labels) /\ some_nonlinear example_labels /\
  proper (sigma_labels example_labels) /\ proper (pi_labels example_labels) /\
  has_shape (shaped 2 2 (fun i j => Num (INR (i + j)))) (length (sigma_labels example_labels)) (length (sigma_labels example_labels)) /\
  has_shape (shaped 2 1 (fun i j => Num (INR (i + j)))) (length (sigma_labels example_labels)) (length (pi_labels example_labels)) /\
  t_header (nonlinear_table 7 example_labels {| mat := fun _ => shaped 2 2 (fun _ _ => Num 0); lower := fun _ _ _ => Num 0; upper := fun _ _ _ => Num 0;
    eliminated_index := fun _ _ _ => false; fixed := []; unfixed := [(Sigma, (1, 1))]; eliminated := [] |} []
    (shaped 2 2 (fun i j => Num (INR (i + j)))) (shaped 2 1 (fun i j => Num (INR (i + j)))) None None None None) =
    [lit "Types:"; lit "Sigma:"; lit "1"; lit "x"; lit "Pi:"; lit "income"].
Proof.
  assert (P : forall s : text, s <> [] -> Forall (fun c => c <> newline) s -> s <> [] /\ on_one_line s).
  { intros s A B. split; [exact A|]. intros C. rewrite Forall_forall in B. exact (B newline C eq_refl). }
  split; [reflexivity|]. split; [exists DerivModel.RCLog; split; [right; left; reflexivity|discriminate]|].
  split; [intros s [<-|[<-|[]]]; apply P; try discriminate; repeat constructor; discriminate|].
  split; [intros s [<-|[]]; apply P; try discriminate; repeat constructor; discriminate|].
  split; [split; reflexivity|]. split; [split; reflexivity|].
  unfold nonlinear_table, shown_squared. cbn [t_header]. destruct (diagonal_sigma _); reflexivity.
Qed.
Example C155_applies : exists ps, initialize example_values example_shapes example_bounds true true = Some ps /\ example_shapes Sigma = [(2, 2)] /\
  labelled example_labels ps /\ NoDup (sigma_labels example_labels) /\ NoDup (phi_labels example_labels) /\
  (forall s, In s (sigma_labels example_labels) \/ In s (phi_labels example_labels) -> ~ In blank s) /\
  theta_labels example_labels ps = [lit "1 x 1"; lit "x x x"; lit "1 x income"; lit "x"; lit "x"].
Proof.
  destruct example_accepted as (ps & H & U & _). exists ps. split; [exact H|]. split; [reflexivity|]. split.
  { intros k i j I. rewrite U in I. cbn [In] in I. destruct I as [I|[I|[I|[I|[I|[]]]]]]; injection I as <- <- <-; cbn; lia. }
  split; [repeat constructor; cbn; intuition discriminate|]. split; [repeat constructor; cbn; intuition discriminate|]. split.
  { intros s [[<-|[<-|[]]]|[<-|[<-|[]]]]; cbn; intuition discriminate. }
  unfold theta_labels. rewrite U. reflexivity.
Qed.
