(** Model of src/pysr3/lme/problems.py.
    Simplifications: exact reals for all table entries; a table is a list of rows with its
    number of columns; the checks of sklearn's check_X_y are those on shapes (entries are
    finite reals); sklearn's unique_labels on a list of numbers is the sorted list of the
    distinct ones, ValueError when some number is not an integer; numpy broadcasting of
    length-1 arrays is modelled in [generate] only. *)
From Verif.Base Require Import Py Vec Mat.
From Verif.Model Require Export Linear.
Open Scope string_scope.
Open Scope list_scope.
Open Scope R_scope.

(** problems.py:30-35 *)
Definition GROUP := "group".
Definition INTERCEPT := "intercept".
Definition VARIANCE := "variance".
Definition FIXED := "fixed".
Definition RANDOM := "random".
Definition FIXED_RANDOM := "fixed+random".

Definition is_fixed (s : string) : bool := String.eqb s FIXED || String.eqb s FIXED_RANDOM.
Definition is_random (s : string) : bool := String.eqb s RANDOM || String.eqb s FIXED_RANDOM.
(** label in (GROUP, VARIANCE, FIXED, RANDOM, FIXED_RANDOM) *)
Definition known_label (s : string) : bool :=
  has_key s [GROUP; VARIANCE; FIXED; RANDOM; FIXED_RANDOM].

(** [i for i, t in enumerate(l) if p(t)], also np.where(mask)[0] *)
Fixpoint where_from {A} (i : nat) (p : A -> bool) (l : list A) : list nat :=
  match l with
  | [] => []
  | a :: l' => if p a then i :: where_from (S i) p l' else where_from (S i) p l'
  end.
Definition where_ {A} (p : A -> bool) (l : list A) : list nat := where_from 0 p l.

Record lme_problem := {
  pr_fixed : list mat;                  (* fixed_features, one (n_i, p) array per group *)
  pr_random : list mat;                 (* random_features, one (n_i, q) array per group *)
  pr_random_0d : bool;                  (* the entries of random_features are np.array(0) *)
  pr_answers : option (list vec);
  pr_obs_vars : list vec;
  pr_group_labels : list R;
  pr_intercept : option string;
  pr_labels : list string;              (* column_labels *)
  pr_order : list nat;                  (* order_of_objects *)
  pr_fe_columns : option (list string);
  pr_re_columns : option (list string);
  pr_fe_weights : option vec;           (* fe_regularization_weights *)
  pr_re_weights : option vec
}.

(** problems.py:131-144, set by the constructor *)
Definition groups_sizes (pr : lme_problem) : list nat := map (@length vec) (pr_fixed pr).
Definition num_groups (pr : lme_problem) : nat := length (groups_sizes pr).
Definition num_obs (pr : lme_problem) : nat := list_sum (groups_sizes pr).
Definition fixed_intercept (label : option string) : bool :=
  match label with Some s => is_fixed s | None => false end.
Definition random_intercept (label : option string) : bool :=
  match label with Some s => is_random s | None => false end.
Definition b2n (b : bool) : nat := if b then 1 else 0.
Definition num_fixed (pr : lme_problem) : nat :=
  countb is_fixed (pr_labels pr) + b2n (fixed_intercept (pr_intercept pr)).
Definition num_random (pr : lme_problem) : nat :=
  countb is_random (pr_labels pr) + b2n (random_intercept (pr_intercept pr)).
Definition num_features (pr : lme_problem) : nat :=
  countb (fun s => is_fixed s || is_random s) (pr_labels pr)
  + b2n (match pr_intercept pr with Some _ => true | None => false end).

(** ** Iteration: problems.py:151-184.  The position is an attribute of the problem itself;
    None before the first __iter__. *)
Definition lme_group : Type := mat * option vec * mat * vec.
Definition group_at (pr : lme_problem) (j : nat) : lme_group :=
  (nth j (pr_fixed pr) [], option_map (fun a => nth j a []) (pr_answers pr),
   nth j (pr_random pr) [], nth j (pr_obs_vars pr) []).
Definition iter_start (pos : option nat) : option nat := Some 0%nat.
(** the element and the new position; None as element is StopIteration *)
Definition iter_next (pr : lme_problem) (pos : option nat) : res (option lme_group * option nat) :=
  match pos with
  | None => Err AttributeError
  | Some j => if (j <? length (pr_fixed pr))%nat
              then Ok (Some (group_at pr j), Some (S j)) else Ok (None, Some j)
  end.
(** for g in problem: body(g); the body may move the position, and is applied to the elements seen *)
Fixpoint for_steps (fuel : nat) (pr : lme_problem) (body : lme_group -> option nat -> option nat)
    (pos : option nat) : res (list lme_group * option nat) :=
  let! (g, pos') := iter_next pr pos in
  match g, fuel with
  | None, _ => Ok ([], pos')
  | Some _, O => Err OutOfFuel
  | Some g, S fuel' => let! (gs, pos'') := for_steps fuel' pr body (body g pos') in Ok (g :: gs, pos'')
  end.
Definition for_loop (pr : lme_problem) body (pos : option nat) : res (list lme_group * option nat) :=
  for_steps (S (length (pr_fixed pr))) pr body (iter_start pos).

(** ** from_x_y *)
Record table := { t_cols : nat; t_rows : mat }.
Definition column (x : mat) (i : nat) : vec := map (fun row => nth i row 0) x.

(** sklearn.utils.multiclass.unique_labels *)
Definition is_int (r : R) : bool := reqb (IZR (Int_part r)) r.
Fixpoint insert_label (a : R) (l : list R) : list R :=
  match l with
  | [] => [a]
  | b :: l' => if rltb a b then a :: l else if reqb a b then l else b :: insert_label a l'
  end.
Definition unique_labels (l : list R) : res (list R) :=
  let! _ := guard (forallb is_int l) ValueError in
  Ok (fold_right insert_label [] l).

(** sklearn.utils.validation.check_X_y *)
Definition check_X_y (x : table) (y : vec) : res unit :=
  guard (negb (length (t_rows x) =? 0)%nat && negb (t_cols x =? 0)%nat
         && (length y =? length (t_rows x))%nat) ValueError.

(** columns[i] *)
Definition column_name (columns : option (list string)) (i : nat) : res string :=
  match columns with
  | None => Err TypeError
  | Some cs => match nth_error cs i with Some c => Ok c | None => Err IndexError end
  end.

(** problems.py:621-635: the weights of one kind of effects.  [asked] is the list in which
    "intercept" is looked up: must_include_fe in both calls. *)
Definition reg_weights (asked must : option (list string)) (columns : option (list string))
    (idx : list nat) (num : nat) : res vec :=
  match must with
  | Some (m :: ms) =>
      let! w0 := match asked with
                 | None => Err TypeError
                 | Some l => Ok (if has_key INTERCEPT l then 0 else 1)
                 end in
      let! ws := sequence (map (fun i => let! c := column_name columns i in
                                         Ok (if has_key c (m :: ms) then 0 else 1)) idx) in
      Ok (w0 :: ws)
  | _ => Ok (ones num)
  end.

(** problems.py:637-644 *)
Definition intercept_label_of (fixed random : bool) : option string :=
  if fixed && random then Some FIXED_RANDOM
  else if random && negb fixed then Some RANDOM
  else if fixed && negb random then Some FIXED
  else None.

(** row[idx] *)
Definition pick (idx : list nat) (row : vec) : vec := map (fun i => nth i row 0) idx.
(** one row of fixed_features or random_features *)
Definition feature_row (intercept : bool) (idx : list nat) (row : vec) : vec :=
  if intercept then 1 :: pick idx row else pick idx row.
(** x[:, group] == label *)
Definition in_group (g : nat) (label : R) (row : vec) : bool := reqb (nth g row 0) label.

(** [columns[i] for i in idx] if columns else None *)
Definition names_of (columns : option (list string)) (idx : list nat) : res (option (list string)) :=
  match columns with
  | None | Some [] => Ok None
  | _ => let! cs := sequence (map (column_name columns) idx) in Ok (Some cs)
  end.

(** problems.py:588-592: default labels *)
Definition default_labels (x : table) (labels : option (list string)) : list string * table :=
  match labels with
  | Some l => (l, x)
  | None => (GROUP :: repeat FIXED (t_cols x) ++ [VARIANCE],
             {| t_cols := S (S (t_cols x)); t_rows := map (fun row => 0 :: row ++ [1]) (t_rows x) |})
  end.

(** problems.py:530-687 *)
Definition from_x_y (x0 : table) (y : option vec) (columns labels0 : option (list string))
    (fit_fixed fit_random : bool) (must_fe must_re : option (list string)) : res lme_problem :=
  let '(labels, x) := default_labels x0 labels0 in
  let! _ := match y with Some y' => check_X_y x y' | None => Ok tt end in
  let! _ := guard (forallb known_label labels) AssertionError in
  let! _ := guard (length labels =? t_cols x)%nat AssertionError in
  match where_ (String.eqb GROUP) labels, where_ (String.eqb VARIANCE) labels with
  | [g], [v] =>
      let! _ := guard (forallb nonzero (column (t_rows x) v)) AssertionError in
      let fidx := where_ is_fixed labels in
      let ridx := where_ is_random labels in
      let! group_labels := unique_labels (column (t_rows x) g) in
      let! _ := match columns with
                | None | Some [] => Ok tt
                | Some cs => guard (length cs =? t_cols x)%nat AssertionError
                end in
      let! _ := match must_fe, must_re, columns with
                | None, None, _ => Ok tt
                | _, _, None => Err ValueError
                | _, _, Some _ => Ok tt
                end in
      let! wf := reg_weights must_fe must_fe columns fidx (length fidx + b2n fit_fixed) in
      let! wr := reg_weights must_fe must_re columns ridx (length ridx + b2n fit_random) in
      let! fe_columns := names_of columns fidx in
      let! re_columns := names_of columns ridx in
      let rows label := filter (in_group g label) (t_rows x) in
      Ok {| pr_fixed := map (fun label => map (feature_row fit_fixed fidx) (rows label)) group_labels;
            pr_random := map (fun label => map (feature_row fit_random ridx) (rows label)) group_labels;
            pr_random_0d := false;
            pr_answers := option_map (fun y' => map (fun label =>
                mask_select (map (in_group g label) (t_rows x)) y') group_labels) y;
            pr_obs_vars := map (fun label => column (rows label) v) group_labels;
            pr_group_labels := group_labels;
            pr_intercept := intercept_label_of fit_fixed fit_random;
            pr_labels := labels;
            pr_order := flat_map (fun label => where_ (in_group g label) (t_rows x)) group_labels;
            pr_fe_columns := fe_columns;
            pr_re_columns := re_columns;
            pr_fe_weights := Some wf;
            pr_re_weights := Some wr |}
  | _, _ => Err AssertionError
  end.

(** ** to_x_y *)
(** a[:, j] *)
Definition take_column (a : mat) (j : nat) : res vec :=
  sequence (map (fun row => match nth_error row j with Some v => Ok v | None => Err IndexError end) a).

(** np.array(order).argsort() for natural numbers *)
Fixpoint insert_pair (a : nat * nat) (l : list (nat * nat)) : list (nat * nat) :=
  match l with
  | [] => [a]
  | b :: l' => if (fst a <=? fst b)%nat then a :: l else b :: insert_pair a l'
  end.
Definition argsort_nat (l : list nat) : list nat :=
  map snd (fold_right insert_pair [] (combine l (seq 0 (length l)))).

(** the loop problems.py:722-736; a column of another label stays zero *)
Fixpoint fill_columns (labels : list string) (groups vars : vec) (fx rx : mat) (fc rc : nat) : res (list vec) :=
  match labels with
  | [] => Ok []
  | l :: labels' =>
      if String.eqb l GROUP then
        let! rest := fill_columns labels' groups vars fx rx fc rc in Ok (groups :: rest)
      else if String.eqb l FIXED then
        let! c := take_column fx fc in
        let! rest := fill_columns labels' groups vars fx rx (S fc) rc in Ok (c :: rest)
      else if String.eqb l RANDOM then
        let! c := take_column rx rc in
        let! rest := fill_columns labels' groups vars fx rx fc (S rc) in Ok (c :: rest)
      else if String.eqb l FIXED_RANDOM then
        let! c := take_column fx fc in
        let! rest := fill_columns labels' groups vars fx rx (S fc) (S rc) in Ok (c :: rest)
      else if String.eqb l VARIANCE then
        let! rest := fill_columns labels' groups vars fx rx fc rc in Ok (vars :: rest)
      else
        let! rest := fill_columns labels' groups vars fx rx fc rc in Ok (zeros (length fx) :: rest)
  end.

(** x[idx] *)
Definition take_rows {A} (x : list A) (idx : list nat) : res (list A) :=
  sequence (map (fun i => match nth_error x i with Some v => Ok v | None => Err IndexError end) idx).

(** problems.py:689-744; np.concatenate of an empty list or of 0-d arrays is a ValueError, and
    so is assigning a column of another length *)
Definition to_x_y (pr : lme_problem) : res (mat * vec * list string) :=
  let! _ := guard (negb (length (pr_fixed pr) =? 0)%nat && negb (pr_random_0d pr)
                   && negb (length (pr_random pr) =? 0)%nat && negb (length (pr_obs_vars pr) =? 0)%nat) ValueError in
  let! _ := guard (length (pr_group_labels pr) =? length (groups_sizes pr))%nat ValueError in
  let fx := concat (pr_fixed pr) in
  let rx := concat (pr_random pr) in
  let vars := concat (pr_obs_vars pr) in
  let groups := concat (map2 (@repeat R) (pr_group_labels pr) (groups_sizes pr)) in
  let! cols := fill_columns (pr_labels pr) groups vars fx rx
                 (b2n (fixed_intercept (pr_intercept pr))) (b2n (random_intercept (pr_intercept pr))) in
  let! _ := guard (forallb (fun c => length c =? length fx)%nat cols) ValueError in
  let! rows := take_rows (tr (length fx) cols) (argsort_nat (pr_order pr)) in
  match pr_answers pr with
  | None => Err TypeError
  | Some a => let! y := take_rows (concat a) (argsort_nat (pr_order pr)) in
              Ok (rows, y, pr_labels pr)
  end.

(** ** from_dataframe: problems.py:746-823 *)
Definition effect_label (fixed random : list string) (effect : string) : string :=
  if has_key effect fixed && has_key effect random then FIXED_RANDOM
  else if has_key effect random then RANDOM else FIXED.
Definition kept_effect (fixed random : list string) (effect : string) : bool :=
  (has_key effect fixed || has_key effect random) && negb (String.eqb effect INTERCEPT).

Definition from_dataframe (d : dataframe) (fixed random : list string) (groups variance target : string)
    (not_reg_fe not_reg_re : list string) : res lme_problem :=
  let names := map fst (df_cols d) in
  let! _ := guard (forallb (fun e => has_key e names)
                     (fixed ++ random ++ [groups; variance; target] ++ not_reg_fe ++ not_reg_re)) ValueError in
  let! _ := guard (forallb (fun e => has_key e fixed) not_reg_fe) ValueError in
  let! _ := guard (forallb (fun e => has_key e random) not_reg_re) ValueError in
  let effects := filter (kept_effect fixed random) names in
  let columns := groups :: effects ++ [variance] in
  let labels := GROUP :: map (effect_label fixed random) effects ++ [VARIANCE] in
  let! cols := sequence (map (df_col d) columns) in
  let! y := df_col d target in
  from_x_y {| t_cols := length columns; t_rows := tr (df_n d) cols |} (Some y) (Some columns) (Some labels)
    (has_key INTERCEPT fixed) (has_key INTERCEPT random) (Some not_reg_fe) (Some not_reg_re).

(** ** get_per_group_coefficients: problems.py:893-951, for one group *)
Fixpoint group_coefficients (labels : list (option string)) (beta u : vec) (fc rc : nat) : res vec :=
  match labels with
  | [] => Ok []
  | l :: labels' =>
      let get (v : vec) i := match nth_error v i with Some a => Ok a | None => Err IndexError end in
      if match l with Some s => String.eqb s FIXED | None => false end then
        let! b := get beta fc in
        let! rest := group_coefficients labels' beta u (S fc) rc in Ok (b :: rest)
      else if match l with Some s => String.eqb s RANDOM | None => false end then
        let! a := get u rc in
        let! rest := group_coefficients labels' beta u fc (S rc) in Ok (a :: rest)
      else if match l with Some s => String.eqb s FIXED_RANDOM | None => false end then
        let! b := get beta fc in
        let! a := get u rc in
        let! rest := group_coefficients labels' beta u (S fc) (S rc) in Ok (b + a :: rest)
      else
        let! rest := group_coefficients labels' beta u fc rc in Ok (0 :: rest)
  end.
Definition per_group_coefficients (beta : vec) (us : list vec) (labels : list (option string)) : res (list vec) :=
  sequence (map (fun u => group_coefficients labels beta u 0 0) us).

(** ** generate: problems.py:186-528.  The random draws and the parameters which default to
    random draws are arguments: beta, gamma, the features, the masks of missing values and
    outliers, the random effects and the errors of each group. *)
Inductive obs_var := VScalar (v : R) | VArray (v : vec) | VOther.

(** np.random.normal(scale=sqrt(v), size=n) and np.ones(n) * v: v has to broadcast to length n *)
Definition broadcast (n : nat) (v : vec) : res vec :=
  if (length v =? n)%nat then Ok v
  else match v with [a] => Ok (repeat a n) | _ => Err ValueError end.

(** problems.py:456-467: the variances of group i, which starts at object start *)
Definition group_variance (ov : obs_var) (sizes : list nat) (i start size : nat) : res vec :=
  match ov with
  | VArray v =>
      if (length v =? list_sum sizes)%nat then broadcast size (firstn (size - start) (skipn start v))
      else if (length v =? length sizes)%nat then Ok (repeat (nth i v 0) size)
      else Err ValueError
  | VScalar v => Ok (repeat v size)
  | VOther => Err ValueError
  end.

Record gen_group := {
  gg_fixed : mat; gg_random : mat; gg_effects : vec; gg_answers : vec; gg_vars : vec; gg_errors : vec
}.

(** the body of the loop problems.py:417-486; given_effects is true_random_effects as a dictionary *)
Definition gen_one (labels : list string) (fit_fixed fit_random : bool) (ov : obs_var) (beta : vec)
    (sizes : list nat) (given_effects : list (nat * vec)) (i start size : nat)
    (features mask : mat) (drawn : vec) (errors : vec) : res gen_group :=
  let rows := map2 vmul (firstn size (skipn start features)) mask in
  let fidx := where_ is_fixed labels in
  let ridx := where_ is_random labels in
  let fx := map (feature_row fit_fixed fidx) rows in
  let q := (length ridx + b2n fit_random)%nat in
  let rx := if (q =? 0)%nat then [] else map (feature_row fit_random ridx) rows in
  let u := if (q =? 0)%nat then []
           else match find (fun kv => (fst kv =? i)%nat) given_effects with
                | Some (_, u) => u | None => drawn end in
  let! vars := group_variance ov sizes i start size in
  let! _ := guard (length u =? q)%nat ValueError in
  let noiseless := if (q =? 0)%nat then mv fx beta else vadd (mv fx beta) (mv rx u) in
  Ok {| gg_fixed := fx; gg_random := rx; gg_effects := u; gg_answers := vadd noiseless errors;
        gg_vars := vars; gg_errors := errors |}.

Fixpoint gen_loop (labels : list string) (fit_fixed fit_random : bool) (ov : obs_var) (beta : vec)
    (all_sizes : list nat) (given_effects : list (nat * vec)) (i start : nat) (sizes : list nat)
    (features : mat) (draws : list (mat * vec * vec)) : res (list gen_group) :=
  match sizes, draws with
  | size :: sizes', (mask, drawn, errors) :: draws' =>
      let! g := gen_one labels fit_fixed fit_random ov beta all_sizes given_effects i start size
                  features mask drawn errors in
      let! gs := gen_loop labels fit_fixed fit_random ov beta all_sizes given_effects (S i) (start + size)
                   sizes' features draws' in
      Ok (g :: gs)
  | _, _ => Ok []
  end.

(** f"x{i}" is left abstract: a function from column indices to names *)
Definition generate (xname : nat -> string) (sizes : list nat) (labels : list string)
    (fit_fixed fit_random : bool) (ov : obs_var) (beta gamma : vec)
    (given_effects : list (nat * vec)) (features : mat) (draws : list (mat * vec * vec))
  : res (lme_problem * list vec) :=
  let fidx := where_ is_fixed labels in
  let ridx := where_ is_random labels in
  let p := (length fidx + b2n fit_fixed)%nat in
  let q := (length ridx + b2n fit_random)%nat in
  let! _ := guard (negb (length labels =? 0)%nat || fit_fixed || fit_random) ValueError in
  let! _ := guard (negb (p =? 0)%nat) ValueError in
  let! _ := guard (length beta =? p)%nat AssertionError in
  let! _ := guard (length gamma =? q)%nat AssertionError in
  let data := if (length labels =? 0)%nat then repeat [1] (list_sum sizes) else features in
  let! gs := gen_loop labels fit_fixed fit_random ov beta sizes given_effects 0 0 sizes data draws in
  let pr := {| pr_fixed := map gg_fixed gs; pr_random := map gg_random gs;
               pr_random_0d := (q =? 0)%nat;
               pr_answers := Some (map gg_answers gs); pr_obs_vars := map gg_vars gs;
               pr_group_labels := map INR (seq 0 (length sizes));
               pr_intercept := intercept_label_of fit_fixed fit_random;
               pr_labels := GROUP :: labels ++ [VARIANCE];
               pr_order := seq 0 (list_sum sizes);
               pr_fe_columns := Some ((if fit_fixed then [INTERCEPT] else []) ++ map xname fidx);
               pr_re_columns := Some ((if fit_random then [INTERCEPT] else []) ++ map xname ridx);
               pr_fe_weights := Some (ones p); pr_re_weights := Some (ones q) |} in
  let! coefs := sequence (map (fun g => group_coefficients (map Some (GROUP :: labels ++ [VARIANCE]))
                                          beta (gg_effects g) 0 0) gs) in
  Ok (pr, coefs).
