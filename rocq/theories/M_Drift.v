(** * M_Drift: model of obp/simulator/coefficient_drifter.py and obp/simulator/delay_sampler.py.

    Coefficients, base weight and delays are finite reals; [drift_interval] and [transition_period] are
    naturals (the code does not check them; the docstring calls them numbers of rounds).  The three
    coefficient arrays are kept flattened in one list of three vectors, as every operation on them is the
    same elementwise one.  The random generator is a state of any type with its two sampling operations. *)

From Coq Require Import Reals List ZArith Bool.
From Verif Require Import Num NpList.
Import ListNotations.
Open Scope R_scope.

(** (context_coef, action_coef, context_action_coef), each flattened. *)
(** Models: simulator/coefficient_drifter.py 68-72. *)
Definition coef : Type := list (list R).

(** coefficient_drifter.py 60-75: the fields; [dr_coefs] stands for the three deques, which always hold the
    same number of entries, [None] dimensions are unset. *)
Record drifter (G : Type) : Type := mkDrifter {
  dr_interval : nat;
  dr_transition : nat;
  dr_weighted : bool;
  dr_seasonal : bool;
  dr_base_weight : R;
  dr_dim_action : option nat;
  dr_dim_context : option nat;
  dr_available : nat;
  dr_coefs : list coef;
  dr_base : option coef;
  dr_rng : G }.
Arguments mkDrifter {G}.
Arguments dr_interval {G}.
Arguments dr_transition {G}.
Arguments dr_weighted {G}.
Arguments dr_seasonal {G}.
Arguments dr_base_weight {G}.
Arguments dr_dim_action {G}.
Arguments dr_dim_context {G}.
Arguments dr_available {G}.
Arguments dr_coefs {G}.
Arguments dr_base {G}.
Arguments dr_rng {G}.

Section Drifter.
Context {G : Type}.
(** synthetic.py 29-40: [sample_random_uniform_coefficients] for given dimensions. *)
Variable sample : nat -> nat -> G -> G * coef.
(** [random_.binomial(n=1, p=weights)]. *)
Variable binom : G -> list R -> G * list R.

(** Models: simulator/coefficient_drifter.py 81, 162, 170. *)
Definition set_available (d : drifter G) (n : nat) : drifter G :=
  mkDrifter (dr_interval d) (dr_transition d) (dr_weighted d) (dr_seasonal d) (dr_base_weight d) (dr_dim_action d)
    (dr_dim_context d) n (dr_coefs d) (dr_base d) (dr_rng d).
(** Models: simulator/coefficient_drifter.py 80, 94-98, 114-118, 201. *)
Definition set_rng (d : drifter G) (g : G) : drifter G :=
  mkDrifter (dr_interval d) (dr_transition d) (dr_weighted d) (dr_seasonal d) (dr_base_weight d) (dr_dim_action d)
    (dr_dim_context d) (dr_available d) (dr_coefs d) (dr_base d) g.
(** Models: simulator/coefficient_drifter.py 101-121. *)
Definition set_coefs (d : drifter G) (c : list coef) (b : option coef) (g : G) : drifter G :=
  mkDrifter (dr_interval d) (dr_transition d) (dr_weighted d) (dr_seasonal d) (dr_base_weight d) (dr_dim_action d)
    (dr_dim_context d) (dr_available d) c b g.
(** Models: simulator/coefficient_drifter.py 139-140. *)
Definition set_dims (d : drifter G) (da dc : option nat) : drifter G :=
  mkDrifter (dr_interval d) (dr_transition d) (dr_weighted d) (dr_seasonal d) (dr_base_weight d) da dc
    (dr_available d) (dr_coefs d) (dr_base d) (dr_rng d).

(** Sampling with an unset dimension raises TypeError ([size=(None, ...)]); the two draws numpy makes before
    it are not modelled. *)
(** Models: simulator/coefficient_drifter.py 90-98, 110-118. *)
Definition sample_dims (d : drifter G) (g : G) : res (G * coef) :=
  match dr_dim_action d, dr_dim_context d with
  | Some da, Some dc => Ok (sample da dc g)
  | _, _ => Err TypeError
  end.

(** A deque with [maxlen=2]: [append] and [rotate]. *)
(** Models: simulator/coefficient_drifter.py 101-103, 119-121. *)
Definition dq_append (q : list coef) (x : coef) : list coef := match q with [a; b] => [b; x] | _ => q ++ [x] end.
(** Models: simulator/coefficient_drifter.py 106-108. *)
Definition dq_rotate (q : list coef) : list coef := match q with [a; b] => [b; a] | _ => q end.

(** coefficient_drifter.py 88-121: [update_coef]. *)
Definition update_coef (d : drifter G) : drifter G * res unit :=
  match (match dr_base d with
         | Some b => Ok (dr_rng d, b)
         | None => sample_dims d (dr_rng d)
         end) with
  | Err e => (d, Err e)
  | Ok (g1, b) =>
      let q := match dr_coefs d with [] => [b] | q => q end in
      if (dr_seasonal d && Nat.eqb (length q) 2)%bool then (set_coefs d (dq_rotate q) (Some b) g1, Ok tt)
      else match sample_dims d g1 with
           | Err e => (set_coefs d q (Some b) g1, Err e)
           | Ok (g2, c) => (set_coefs d (dq_append q c) (Some b) g2, Ok tt)
           end
  end.

(** Python truth value of an optional dimension. *)
(** Models: simulator/coefficient_drifter.py 85, 130-133. *)
Definition is_set (x : option nat) : bool := match x with Some (S _) => true | _ => false end.
(** Models: simulator/coefficient_drifter.py 135-136. *)
Definition same_dim (x y : option nat) : bool :=
  match x, y with Some a, Some b => Nat.eqb a b | None, None => true | _, _ => false end.

(** coefficient_drifter.py 77-86: [__post_init__] with a given random state. *)
Definition drifter_new (interval transition : nat) (weighted seasonal : bool) (base_weight : R)
    (da dc : option nat) (g : G) : drifter G * res unit :=
  let d := mkDrifter interval transition weighted seasonal base_weight da dc interval [] None g in
  if (is_set da && is_set dc)%bool then update_coef d else (d, Ok tt).

(** coefficient_drifter.py 186-198: the transition steps handed to [weights]. *)
Definition transition_steps (available transition rounds : nat) : list nat :=
  let steps := seq 1 transition in
  let steps := if Nat.leb transition available then repeat 0%nat (available - transition) ++ steps
               else skipn (transition - available) steps in
  skipn (available - rounds) steps.

(** coefficient_drifter.py 222-240: [compute_weighted_coefs], one row of the broadcast expression. *)
Definition mix (w : R) (base a b : list R) (wt : R) : list R :=
  map (fun x => w * fst (fst x) + snd (fst x) * ((1 - w) * (1 - wt)) + snd x * ((1 - w) * wt))
      (combine (combine base a) b).
Definition mix_coef (w : R) (base a b : coef) (wt : R) : coef :=
  map (fun x => mix w (fst (fst x)) (snd (fst x)) (snd x) wt) (combine (combine base a) b).

(** coefficient_drifter.py 179-220: [append_current_coefs]; there are as many weights as rounds. *)
Definition append_current_coefs (d : drifter G) (rounds : nat) : res (drifter G * list coef) :=
  let steps := transition_steps (dr_available d) (dr_transition d) rounds in
  let weights := map (fun s => INR s / (INR (dr_transition d) + 1)) steps in
  let gw := if dr_weighted d then binom (dr_rng d) weights else (dr_rng d, weights) in
  match dr_coefs d, dr_base d with
  | a :: b :: _, Some base => Ok (set_rng d (fst gw), map (mix_coef (dr_base_weight d) base a b) (snd gw))
  | _, _ => Err IndexError
  end.

(** coefficient_drifter.py 149-172: the while loop; [None] while it is still running after [fuel] turns. *)
Fixpoint drift_loop (fuel : nat) (d : drifter G) (required : nat) (acc : list coef)
  : option (drifter G * res (list coef)) :=
  match required with
  | O => Some (d, Ok acc)
  | S _ =>
      match fuel with
      | O => None
      | S fuel' =>
          if Nat.leb (dr_available d) required then
            match append_current_coefs d (dr_available d) with
            | Err e => Some (d, Err e)
            | Ok (d1, rows) =>
                let u := update_coef d1 in
                match snd u with
                | Err e => Some (fst u, Err e)
                | Ok _ => drift_loop fuel' (set_available (fst u) (dr_interval d)) (required - dr_available d) (acc ++ rows)
                end
            end
          else
            match append_current_coefs d required with
            | Err e => Some (d, Err e)
            | Ok (d1, rows) => drift_loop fuel' (set_available d1 (dr_available d - required)) 0 (acc ++ rows)
            end
      end
  end.

(** coefficient_drifter.py 123-177: [get_coefficients]; the final [np.vstack] of nothing raises ValueError. *)
Definition get_coefficients (fuel : nat) (d : drifter G) (n_rounds : nat) (dc da : option nat)
  : option (drifter G * res (list coef)) :=
  match (if (is_set da && is_set dc)%bool then
           if ((negb (is_set (dr_dim_action d)) && negb (is_set (dr_dim_context d))) ||
               (same_dim (dr_dim_action d) da && same_dim (dr_dim_context d) dc))%bool
           then Ok (set_dims d da dc) else Err RuntimeError
         else Ok d) with
  | Err e => Some (d, Err e)
  | Ok d1 =>
      let u := match dr_coefs d1 with [] => update_coef d1 | _ => (d1, Ok tt) end in
      match snd u with
      | Err e => Some (fst u, Err e)
      | Ok _ =>
          match drift_loop fuel (fst u) n_rounds [] with
          | None => None
          | Some (d2, Err e) => Some (d2, Err e)
          | Some (d2, Ok []) => Some (d2, match n_rounds with O => Err ValueError | _ => Ok [] end)
          | Some (d2, Ok rows) => Some (d2, Ok rows)
          end
      end
  end.
End Drifter.

(** ** delay_sampler.py *)

(** [np.ceil]. *)
(** Models: simulator/delay_sampler.py 64, 92. *)
Definition ceil (x : R) : Z := (- Int_part (- x))%Z.

(** delay_sampler.py 64-68: [exponential_delay_function]; [draws] is [random_.exponential(max_scale, n_rounds)],
    repeated for every action by [np.tile(...).T]. *)
Definition exponential_delay_function (exponential : R -> nat -> list R) (max_scale : R) (n_rounds n_actions : nat)
  : res (list (list R)) :=
  if Rltb max_scale 0 then Err ValueError
  else Ok (map (fun x => repeat (IZR (ceil x)) n_actions) (exponential max_scale n_rounds)).

(** delay_sampler.py 89-96: [exponential_delay_function_expected_reward_weighted]; a negative scale makes
    numpy raise ValueError. *)
Definition delay_scale (min_scale max_scale expected_reward : R) : R :=
  min_scale + (1 - expected_reward) * (max_scale - min_scale).
Definition exponential_delay_function_weighted (exponential : list (list R) -> list (list R))
    (min_scale max_scale : R) (expected_rewards : list (list R)) : res (list (list R)) :=
  let scale := map (map (delay_scale min_scale max_scale)) expected_rewards in
  if existsb (existsb (fun s => Rltb s 0)) scale then Err ValueError
  else Ok (map (map (fun x => IZR (ceil x))) (exponential scale)).
