(** Model of mrx/io.py (parse_args, load_sweep), of update_config with its tables and of the
    config part of save_trace_dict_to_hdf5 (mrx/utils.py).

    Strings are Coq strings over the 256 code points of Latin-1; argument strings outside that
    range are not modelled.  Floats are an abstract type. *)
From Coq Require Import String Ascii List Arith NArith ZArith Bool Lia.
Import ListNotations.
Open Scope string_scope.
Open Scope list_scope.

(** *** Python dictionaries with string keys: insertion-ordered association lists *)
Section Dict.
Variable A : Type.
(* the dictionaries of io.py:27, 111, 130 and utils.py:260-337 *)
Definition dict := list (string * A).
(** d.get(k) (None: absent), k in d *)
(* io.py:140, utils.py:569-585 *)
Fixpoint dget (d : dict) (k : string) : option A :=
  match d with [] => None | (k', x) :: r => if String.eqb k k' then Some x else dget r k end.
(* utils.py:571-585 *)
Definition dmem (d : dict) (k : string) : bool := match dget d k with Some _ => true | None => false end.
(** d[k] = x: in place if the key exists, else at the end *)
(* io.py:45, utils.py:571-585 *)
Fixpoint dset (d : dict) (k : string) (x : A) : dict :=
  match d with [] => [(k, x)] | (k', y) :: r => if String.eqb k k' then (k', x) :: r else (k', y) :: dset r k x end.
(* io.py:140 *)
Definition dkeys (d : dict) : list string := map fst d.
End Dict.
Arguments dget {A}. Arguments dmem {A}. Arguments dset {A}. Arguments dkeys {A}.

(** *** str methods on Latin-1 *)
(* io.py:36 *)
Definition code (c : ascii) : nat := nat_of_ascii c.
(* io.py:36-37 *)
Definition is_decimal (c : ascii) : bool := (48 <=? code c)%nat && (code c <=? 57)%nat.
(** str.isdigit per character: decimal digits and the superscripts two, three, one *)
(* io.py:36 *)
Definition is_digit (c : ascii) : bool :=
  is_decimal c || (code c =? 178)%nat || (code c =? 179)%nat || (code c =? 185)%nat.
(* io.py:36 *)
Fixpoint forall_chars (f : ascii -> bool) (s : string) : bool :=
  match s with EmptyString => true | String c r => f c && forall_chars f r end.
(* io.py:36 *)
Definition isdigit (s : string) : bool := match s with EmptyString => false | _ => forall_chars is_digit s end.
(** str.lower, str.upper per character.  upper of the sharp s, micro sign and y-diaeresis leaves
    Latin-1 and is left unchanged here: no device name contains such a letter or its image. *)
(* io.py:38-39 *)
Definition lower_char (c : ascii) : ascii :=
  let n := code c in
  if ((65 <=? n) && (n <=? 90))%nat || ((192 <=? n) && (n <=? 222) && negb (n =? 215))%nat then ascii_of_nat (n + 32) else c.
(* utils.py:569 *)
Definition upper_char (c : ascii) : ascii :=
  let n := code c in
  if ((97 <=? n) && (n <=? 122))%nat || ((224 <=? n) && (n <=? 254) && negb (n =? 247))%nat then ascii_of_nat (n - 32) else c.
(* io.py:38, utils.py:569 *)
Fixpoint map_chars (f : ascii -> ascii) (s : string) : string :=
  match s with EmptyString => EmptyString | String c r => String (f c) (map_chars f r) end.
(* io.py:38-39 *)
Definition lower := map_chars lower_char.
(* utils.py:569 *)
Definition upper := map_chars upper_char.
(** kv.split('=', 1), None when '=' not in kv *)
(* io.py:29-34 *)
Fixpoint split_eq (s : string) : option (string * string) :=
  match s with
  | EmptyString => None
  | String c r => if Ascii.eqb c "=" then Some (EmptyString, r)
                  else match split_eq r with Some (k, v) => Some (String c k, v) | None => None end
  end.
(** str.endswith *)
(* io.py:121 *)
Definition endswith (s e : string) : bool :=
  (String.length e <=? String.length s)%nat &&
  String.eqb (substring (String.length s - String.length e) (String.length e) s) e.

Section IO.
(** floats: type, zero test, decimal literal m * 10^-e *)
Variable Fl : Type.
Variable is_zero : Fl -> bool.
Variable flit : Z -> nat -> Fl.
(** float(s); None: ValueError *)
Variable pyfloat : string -> option Fl.
(** sys.get_int_max_str_digits(): 4300 by default in recent CPython, no limit in older ones *)
Variable max_digits : option nat.

Inductive val := VNone | VInt (n : Z) | VBool (b : bool) | VFloat (f : Fl) | VStr (s : string) | VCallable.

(** int(value) for a string of digits; None: ValueError *)
(* io.py:37 *)
Definition digit_value (c : ascii) : N := N.of_nat (code c - 48).
(* io.py:37 *)
Fixpoint int_digits (acc : N) (s : string) : N :=
  match s with EmptyString => acc | String c r => int_digits (10 * acc + digit_value c) r end.
(* io.py:37 *)
Definition pyint (s : string) : option N :=
  if forall_chars is_decimal s && match max_digits with Some m => (String.length s <=? m)%nat | None => true end
  then Some (int_digits 0 s) else None.

(** *** parse_args, io.py:9-46, from args.kv on (argparse itself is not modelled: it rejects
    arguments starting with '-' that are not options) *)
(** conversion of one value, io.py:35-44; None: ValueError (int raises outside the try) *)
Definition convert (v : string) : option val :=
  if isdigit v then match pyint v with Some n => Some (VInt (Z.of_N n)) | None => None end
  else if existsb (String.eqb (lower v)) ["true"; "false"] then Some (VBool (String.eqb (lower v) "true"))
  else match pyfloat v with Some f => Some (VFloat f) | None => Some (VStr v) end.
(** io.py:26-46 *)
Fixpoint parse_from (kwargs : dict val) (kvs : list string) : option (dict val) :=
  match kvs with
  | [] => Some kwargs
  | kv :: r =>
      match split_eq kv with
      | None => parse_from kwargs r
      | Some (key, value) =>
          match convert value with
          | Some x => parse_from (dset kwargs key x) r
          | None => None
          end
      end
  end.
Definition parse_args (kvs : list string) : option (dict val) := parse_from [] kvs.

(** *** tables, utils.py:260-319 *)
Definition fl (m : Z) (e : nat) : val := VFloat (flit m e).
Definition DEVICE_PRESETS : dict (dict val) :=
  [("ITER", [("eps", fl 32 2); ("kappa", fl 17 1); ("delta", fl 33 2); ("q_star", fl 157 2); ("type", VStr "tokamak"); ("n_zeta", VInt 1); ("p_zeta", VInt 0)]);
   ("NSTX", [("eps", fl 78 2); ("kappa", fl 20 1); ("delta", fl 35 2); ("q_star", fl 20 1); ("type", VStr "tokamak"); ("n_zeta", VInt 1); ("p_zeta", VInt 0)]);
   ("SPHERO", [("eps", fl 95 2); ("kappa", fl 10 1); ("delta", fl 2 1); ("q_star", fl 0 1); ("type", VStr "tokamak"); ("n_zeta", VInt 1); ("p_zeta", VInt 0)]);
   ("ROT_ELL", [("a", fl 1 1); ("b", fl 25 3); ("m_rot", VInt 5); ("q_star", fl 16 1); ("type", VStr "rotating_ellipse")]);
   ("HELIX", [("eps", fl 33 2); ("h_helix", fl 20 2); ("kappa", fl 17 1); ("delta", fl 33 2); ("m_helix", VInt 3); ("q_star", fl 20 1); ("type", VStr "helix")])].
Definition DEFAULT_CONFIG : dict val :=
  [("run_name", VStr ""); ("boundary_type", VStr "rotating_ellipse");
   ("eps", fl 2 1); ("kappa", fl 17 1); ("q_star", fl 157 2); ("delta", fl 0 1); ("nfp", VInt 3); ("h_helix", VInt 0); ("R_0", fl 10 1);
   ("n_r", VInt 8); ("n_theta", VInt 8); ("n_zeta", VInt 6); ("p_r", VInt 3); ("p_theta", VInt 3); ("p_zeta", VInt 3);
   ("maxit", VInt 5000); ("precond", VBool false); ("precond_compute_every", VInt 1000); ("gamma", VInt 0); ("dt", fl 1 6);
   ("dt_factor", fl 101 2); ("force_tol", fl 1 15); ("eta", fl 0 1); ("force_free", VBool false);
   ("solver_maxit", VInt 20); ("solver_critit", VInt 4); ("solver_tol", fl 1 12); ("verbose", VBool false); ("print_every", VInt 1000);
   ("save_every", VInt 100); ("save_B", VBool false); ("save_B_every", VInt 500);
   ("pert_strength", fl 0 1); ("pert_pol_mode", VInt 2); ("pert_tor_mode", VInt 1); ("pert_radial_loc", fl 5 1);
   ("pert_radial_width", fl 7 2); ("apply_pert_after", VInt 2000)].

(** *** update_config, utils.py:555-587, on a store of dictionary objects *)
Definition truthy (v : val) : bool :=
  match v with VNone => false | VInt n => negb (n =? 0)%Z | VBool b => b | VFloat f => negb (is_zero f)
             | VStr s => negb (String.eqb s "") | VCallable => true end.
Definition store := list (dict val).
Definition sget (h : store) (a : nat) : dict val := nth a h [].
Definition sput (h : store) (a : nat) (d : dict val) : store := firstn a h ++ d :: skipn (S a) h.
(** for k, v in preset.items(): CONFIG[k] = v, utils.py:571-572 *)
Definition apply_all (h : store) (c : nat) (kvs : dict val) : store :=
  fold_left (fun h kv => sput h c (dset (sget h c) (fst kv) (snd kv))) kvs h.
(** utils.py:577-579 (the else branch only prints) *)
Definition apply_known (h : store) (c : nat) (kvs : dict val) : store :=
  fold_left (fun h kv => if dmem (sget h c) (fst kv) then sput h c (dset (sget h c) (fst kv) (snd kv)) else h) kvs h.
(** the step 1, utils.py:567-574; None: AttributeError, the device is not a string *)
Definition apply_device (h : store) (p c : nat) : option store :=
  match dget (sget h p) "device" with
  | Some d =>
      if truthy d then
        match d with
        | VStr s => match dget DEVICE_PRESETS (upper s) with
                    | Some preset => Some (apply_all h c preset)
                    | None => Some h
                    end
        | _ => None
        end
      else Some h
  | None => Some h
  end.
(** update_config(params, CONFIG) with the two arguments given as objects; returns CONFIG.
    If params is CONFIG itself the loop iterates over the dictionary it assigns existing keys of. *)
(* utils.py:555-586 *)
Definition update_config (h : store) (p c : nat) : option (store * nat) :=
  match apply_device h p c with
  | Some h1 => Some (apply_known h1 c (sget h1 p), c)
  | None => None
  end.

(** the geometry chosen by solovev.py:57-68 from a configuration; None: ValueError or KeyError *)
Definition boundary (cfg : dict val) : option string :=
  match dget cfg "boundary_type" with
  | Some (VStr s) => if existsb (String.eqb s) ["tokamak"; "helix"; "rotating_ellipse"] then Some s else None
  | _ => None
  end.

(** *** the config group, utils.py:424-446: callables and None (object dtype) are skipped;
    arrays are not modelled *)
Definition saved_config (cfg : dict val) : dict val :=
  filter (fun kv => match snd kv with VCallable | VNone => false | _ => true end) cfg.

(** *** load_sweep, io.py:77-153 *)
(** python's == between attribute values (1 == 1.0 == True, nan != nan) *)
Variable pyeq : val -> val -> bool.
Variable T : Type.
(** an HDF5 file: its datasets and the attributes of its group "config" *)
(* utils.py:395-445, io.py:127-134 *)
Record h5 := H5 { datasets : dict T; attrs : option (dict val) }.
(** np.arange(0, maxit, save_every); None: raises (zero step) or is not an integer progression
    here (float arguments are not modelled) *)
(* io.py:134 *)
Definition arange (maxit step : Z) : option (list Z) :=
  if (step =? 0)%Z then None else
  Some (map (fun i => (step * Z.of_nat i)%Z) (seq 0 (Z.to_nat ((maxit + step - Z.sgn step) / step)))).
(** the try block, io.py:118-129; None: exception *)
Definition read_file (QOI : string) (f : option h5) : option (dict val * T * list Z) :=
  match f with
  | Some f =>
      match dget (datasets f) QOI, attrs f with
      | Some q, Some cfg =>
          match dget cfg "maxit", dget cfg "save_every" with
          | Some (VInt m), Some (VInt s) => match arange m s with Some l => Some (cfg, q, l) | None => None end
          | _, _ => None
          end
      | _, _ => None
      end
  | None => None
  end.
(** io.py:132-135: keys of cfg whose value differs from ref_cfg.get(k) and that are not allowed *)
Definition unexpected_diffs (ref cfg : dict val) (allowed : list string) : list string :=
  dkeys (filter (fun kv => negb (existsb (String.eqb (fst kv)) allowed))
          (filter (fun kv => match dget ref (fst kv) with Some v => negb (pyeq v (snd kv)) | None => true end) cfg)).
(** the loop over os.listdir(path), io.py:112-151; a directory is the list of its entries, a
    file h5py cannot open being None *)
Fixpoint load_files (ref : dict val) (QOI : string) (allowed : list string) (dir : list (string * option h5)) :
  list (dict val) * list T * list (list Z) :=
  match dir with
  | [] => ([], [], [])
  | (fname, f) :: r =>
      let '(cfgs, forces, iter_counts) := load_files ref QOI allowed r in
      if negb (endswith fname ".h5") then (cfgs, forces, iter_counts) else
      match read_file QOI f with
      | None => (cfgs, forces, iter_counts)
      | Some (cfg, q, l) =>
          match unexpected_diffs ref cfg allowed with
          | [] => (cfg :: cfgs, q :: forces, l :: iter_counts)
          | _ => (cfgs, forces, iter_counts)
          end
      end
  end.
(** ref_cfg is read first, outside any try, io.py:103-106; None: exception *)
Definition load_sweep (dir : list (string * option h5)) (reference : option h5) (QOI : string) (sweep_params : list string) :
  option (list (dict val) * list T * list (list Z)) :=
  match reference with
  | Some f => match attrs f with
              | Some ref => Some (load_files ref QOI ("run_name" :: sweep_params) dir)
              | None => None end
  | None => None
  end.
End IO.
