(** Model of src/pysr3/priors.py and src/pysr3/lme/priors.py.
    Simplification: exact reals; the attributes means, stds and weights of GaussianPrior,
    which are always set and cleared together, are one optional triple. *)
From Verif.Base Require Import Py Vec Mat.
From Verif.Model Require Export Logger.
Open Scope R_scope.

(** {"name": (mean, std)} *)
Definition prior_params := list (string * (R * R)).

Record gauss := {
  gp_params : prior_params;
  gp_inst : option (vec * vec * vec)   (* means, stds, weights *)
}.

(** priors.py:35-47 *)
Definition mk_gauss (params : prior_params) : gauss := {| gp_params := params; gp_inst := None |}.

(** priors.py:70-75: one iteration of the loop over the columns *)
Definition gauss_column (params : prior_params) (label : string) : res (R * R * R) :=
  let '(mean, std) := match lookup label params with Some ms => ms | None => (0, 0) end in
  let! _ := guard (rleb 0 std) AssertionError in
  Ok (mean, if rltb 0 std then std else 1, if rltb 0 std then 1 else 0).

(** priors.py:49-78 instantiate *)
Definition gauss_instantiate (g : gauss) (columns : list string) : res gauss :=
  let! _ := guard (forallb (fun kv => has_key (fst kv) columns) (gp_params g)) AssertionError in
  let! cols := sequence (map (gauss_column (gp_params g)) columns) in
  Ok {| gp_params := gp_params g;
        gp_inst := Some (map (fun c => fst (fst c)) cols, map (fun c => snd (fst c)) cols, map snd cols) |}.

(** priors.py:80-90 forget *)
Definition gauss_forget (g : gauss) : gauss := {| gp_params := gp_params g; gp_inst := None |}.

(** numpy broadcasting of x against means, stds and weights: what has length 1 is repeated *)
Definition gauss_match (x means stds weights : vec) : res (vec * vec * vec * vec) :=
  if (length x =? length means)%nat then Ok (x, means, stds, weights)
  else if (length means =? 1)%nat then
    let wide v := repeat (hd 0 v) (length x) in Ok (x, wide means, wide stds, wide weights)
  else if (length x =? 1)%nat then Ok (repeat (hd 0 x) (length means), means, stds, weights)
  else Err ValueError.
(** priors.py:92-105 loss; before instantiate: None * ... is a TypeError *)
Definition gauss_loss (g : gauss) (x : vec) : res R :=
  match gp_inst g with
  | None => Err TypeError
  | Some (means, stds, weights) =>
      let! (x, means, stds, weights) := gauss_match x means stds weights in
      Ok (vsum (vmul (vmul weights (map (fun s => 1 / (2 * s)) stds))
                     (map (fun d => d ^ 2) (vsub x means))))
  end.
(** priors.py:107-120 gradient *)
Definition gauss_gradient (g : gauss) (x : vec) : res vec :=
  match gp_inst g with
  | None => Err TypeError
  | Some (means, stds, weights) =>
      let! (x, means, stds, weights) := gauss_match x means stds weights in
      Ok (vmul (vmul weights (map (fun s => 1 / s) stds)) (vsub x means))
  end.
(** priors.py:122-130 hessian *)
Definition gauss_hessian (g : gauss) : res mat :=
  match gp_inst g with
  | None => Err TypeError
  | Some (means, stds, weights) => Ok (diag (vmul weights (map (fun s => 1 / s) stds)))
  end.

(** The prior of a linear oracle: NonInformativePrior (priors.py:133-199) or GaussianPrior.
    As in Linear.v, arrays of different lengths are a ValueError there. *)
Inductive prior := PNone | PGauss (g : gauss).
Definition same_length (g : gauss) (x : vec) : res unit :=
  match gp_inst g with
  | None => Ok tt
  | Some (means, _, _) => guard (length x =? length means)%nat ValueError
  end.

Definition prior_loss (p : prior) (x : vec) : res R :=
  match p with PNone => Ok 0 | PGauss g => let! _ := same_length g x in gauss_loss g x end.
Definition prior_gradient (p : prior) (x : vec) : res vec :=
  match p with PNone => Ok (zeros (length x)) | PGauss g => let! _ := same_length g x in gauss_gradient g x end.
(** prior.hessian for n coefficients; the non-informative one returns the scalar 0, which
    broadcasts to a zero matrix *)
Definition prior_hessian (p : prior) (n : nat) : res mat :=
  match p with PNone => Ok (repeat (zeros n) n) | PGauss g => gauss_hessian g end.
Definition prior_forget (p : prior) : prior :=
  match p with PNone => PNone | PGauss g => PGauss (gauss_forget g) end.

(** lme/priors.py:12-27 GaussianPriorLME.__init__ *)
Record gauss_lme := {
  gl_fe : option prior_params;
  gl_re : option prior_params;
  gl_beta : gauss;
  gl_gamma : gauss
}.
Definition mk_gauss_lme (fe re : prior_params) : gauss_lme :=
  {| gl_fe := Some fe; gl_re := Some re; gl_beta := mk_gauss fe; gl_gamma := mk_gauss re |}.

(** lme/priors.py:29-49 instantiate.  The columns are None when the problem was built from
    arrays; the second assertion repeats the first one. *)
Definition gauss_lme_instantiate (g : gauss_lme) (fcols rcols : option (list string)) : res gauss_lme :=
  match fcols, rcols with
  | Some (c :: fcols'), Some (d :: rcols') =>
      match gl_fe g with
      | None => Err AttributeError
      | Some fe =>
          let! _ := guard (forallb (fun kv => has_key (fst kv) (c :: fcols')) fe) AssertionError in
          let! b := gauss_instantiate (gl_beta g) (c :: fcols') in
          let! r := gauss_instantiate (gl_gamma g) (d :: rcols') in
          Ok {| gl_fe := gl_fe g; gl_re := gl_re g; gl_beta := b; gl_gamma := r |}
      end
  | _, _ => Err AssertionError
  end.

(** lme/priors.py:51-62 forget *)
Definition gauss_lme_forget (g : gauss_lme) : gauss_lme :=
  {| gl_fe := None; gl_re := None; gl_beta := gauss_forget (gl_beta g); gl_gamma := gauss_forget (gl_gamma g) |}.

(** lme/priors.py:64-167: loss and derivatives *)
Definition gauss_lme_loss (g : gauss_lme) (beta gamma : vec) : res R :=
  let! b := gauss_loss (gl_beta g) beta in
  let! r := gauss_loss (gl_gamma g) gamma in
  Ok (b + r).
Definition gauss_lme_gradient_beta (g : gauss_lme) (beta : vec) : res vec := gauss_gradient (gl_beta g) beta.
Definition gauss_lme_gradient_gamma (g : gauss_lme) (gamma : vec) : res vec := gauss_gradient (gl_gamma g) gamma.
Definition gauss_lme_hessian_beta (g : gauss_lme) : res mat := gauss_hessian (gl_beta g).
Definition gauss_lme_hessian_gamma (g : gauss_lme) : res mat := gauss_hessian (gl_gamma g).
