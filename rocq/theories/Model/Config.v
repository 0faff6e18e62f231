(** Model of src/trace_config.cc. *)
From Verif Require Import Base Model.StringUtils Model.Event Model.Queue Model.Buffer.

(** The trace_buffer_factory values: the two built-in functions
    (trace_buffer.cc:184-187, 313-316) or one supplied by the program. *)
Inductive factory := make_fixed_buffer | make_ring_buffer | user_factory (id : N).

(** The stopped callbacks: the built-in FileStopCallback or one supplied by the
    program. *)
Inductive callback := FileStop (path : bytes) | user_callback (id : N).

(** trace_config.h:270-296: BufferFactoryContainer and the other members. *)
Record config := {
  cf_mode : bmode;
  cf_factory : factory;
  cf_size : N;
  cf_callback : option callback;
  cf_stop : bool;
  cf_enabled : list bytes;
  cf_disabled : list bytes;
}.

(** trace_config.cc:81-96 [modeToFactory]. *)
Definition modeToFactory (m : bmode) : res factory :=
  match m with
  | mode_fixed => Ok make_fixed_buffer
  | mode_ring => Ok make_ring_buffer
  | mode_custom => Throw InvalidArgument
  | mode_invalid => Throw InvalidArgument
  end.

(** trace_config.h:289-296 and trace_config.cc:64, the default constructor; the
    member initialiser runs modeToFactory(fixed). *)
Definition config_default : config := {|
  cf_mode := mode_fixed; cf_factory := make_fixed_buffer; cf_size := 0;
  cf_callback := None; cf_stop := false; cf_enabled := []; cf_disabled := [];
|}.

(** trace_config.cc:68-72 and 227-229. *)
Definition config_mode (m : bmode) (size : N) : res config :=
  do f <- modeToFactory m;
  Ok {| cf_mode := m; cf_factory := f; cf_size := size;
        cf_callback := None; cf_stop := false; cf_enabled := [$"*"]; cf_disabled := [] |}.

(** trace_config.cc:74-79 and 231-234. *)
Definition config_factory (f : factory) (size : N) : config := {|
  cf_mode := mode_custom; cf_factory := f; cf_size := size;
  cf_callback := None; cf_stop := false; cf_enabled := [$"*"]; cf_disabled := [];
|}.

(** Setters, trace_config.cc:110-135 (setStoppedCallback, setStopTracingOnDestruct,
    setCategories), and the assignments of updateFromString. *)
Definition setStoppedCallback (c : config) (cb : option callback) : config :=
  {| cf_mode := cf_mode c; cf_factory := cf_factory c; cf_size := cf_size c; cf_callback := cb;
     cf_stop := cf_stop c; cf_enabled := cf_enabled c; cf_disabled := cf_disabled c |}.
Definition setStopTracingOnDestruct (c : config) (b : bool) : config :=
  {| cf_mode := cf_mode c; cf_factory := cf_factory c; cf_size := cf_size c; cf_callback := cf_callback c;
     cf_stop := b; cf_enabled := cf_enabled c; cf_disabled := cf_disabled c |}.
Definition setCategories (c : config) (en dis : list bytes) : config :=
  {| cf_mode := cf_mode c; cf_factory := cf_factory c; cf_size := cf_size c; cf_callback := cf_callback c;
     cf_stop := cf_stop c; cf_enabled := en; cf_disabled := dis |}.
Definition set_container (c : config) (m : bmode) (f : factory) : config :=
  {| cf_mode := m; cf_factory := f; cf_size := cf_size c; cf_callback := cf_callback c;
     cf_stop := cf_stop c; cf_enabled := cf_enabled c; cf_disabled := cf_disabled c |}.
Definition set_size (c : config) (n : N) : config :=
  {| cf_mode := cf_mode c; cf_factory := cf_factory c; cf_size := n; cf_callback := cf_callback c;
     cf_stop := cf_stop c; cf_enabled := cf_enabled c; cf_disabled := cf_disabled c |}.

(** std::stoi (strtol in base 10, "C" locale): blanks, an optional sign, digits;
    the rest is ignored. *)
Definition is_blank (c : ascii) : bool :=
  ((N_of_ascii c =? 32) || ((9 <=? N_of_ascii c) && (N_of_ascii c <=? 13)))%N.
Definition is_dec (c : ascii) : bool := ((48 <=? N_of_ascii c) && (N_of_ascii c <=? 57))%N.

Fixpoint skip_blanks (s : bytes) : bytes :=
  match s with c :: r => if is_blank c then skip_blanks r else s | [] => [] end.

Fixpoint strtol_digits (acc : N) (s : bytes) : N :=
  match s with
  | c :: r => if is_dec c then strtol_digits (acc * 10 + (N_of_ascii c - 48))%N r else acc
  | [] => acc
  end.

Definition stoi (s : bytes) : res Z :=
  let s := skip_blanks s in
  let '(neg, s) := match s with
                   | c :: r => if Ascii.eqb c "-" then (true, r)
                               else if Ascii.eqb c "+" then (false, r) else (false, s)
                   | [] => (false, [])
                   end in
  match s with
  | c :: _ =>
      if is_dec c then
        let n := Z.of_N (strtol_digits 0 s) in
        let z := (if neg then - n else n)%Z in
        if ((- 2 ^ 31 <=? z) && (z <? 2 ^ 31))%Z then Ok z else Throw OutOfRange
      else Throw InvalidArgument
  | [] => Throw InvalidArgument
  end.

(** trace_config.cc:157-200, the body of the loop for one key and value. *)
Definition apply_kv (c : config) (key value : bytes) : res config :=
  if bytes_eqb key $"buffer-mode" then
    if bytes_eqb value $"fixed" then do f <- modeToFactory mode_fixed; Ok (set_container c mode_fixed f)
    else if bytes_eqb value $"ring" then do f <- modeToFactory mode_ring; Ok (set_container c mode_ring f)
    else Throw InvalidArgument
  else if bytes_eqb key $"buffer-size" then
    match stoi value with
    | Ok size => if (size <? 0)%Z then Throw InvalidArgument else Ok (set_size c (Z.to_N size))
    | Throw _ => Throw InvalidArgument
    | UB => UB
    end
  else if bytes_eqb key $"save-on-stop" then
    Ok (setStopTracingOnDestruct (setStoppedCallback c (Some (FileStop value))) true)
  else if bytes_eqb key $"enabled-categories" then
    Ok (setCategories c (split_string value (chr 44)) (cf_disabled c))
  else if bytes_eqb key $"disabled-categories" then
    Ok (setCategories c (cf_enabled c) (split_string value (chr 44)))
  else Ok c.

(** One iteration of the loop, trace_config.cc:148-201. *)
Definition apply_argument (c : config) (argument : bytes) : res config :=
  match split_string argument (chr 58) with
  | [key; value] => apply_kv c key value
  | _ => Throw InvalidArgument
  end.

(** trace_config.cc:145-202 [updateFromString]: the object afterwards, and the
    exception if one was thrown. *)
Fixpoint update_loop (c : config) (arguments : list bytes) : config * res unit :=
  match arguments with
  | [] => (c, Ok tt)
  | a :: r => match apply_argument c a with
              | Ok c' => update_loop c' r
              | Throw e => (c, Throw e)
              | UB => (c, UB)
              end
  end.
Definition updateFromString (c : config) (s : bytes) : config * res unit :=
  update_loop c (split_string s (chr 59)).

(** trace_config.cc:204-210 [fromString]. *)
Definition fromString (s : bytes) : res config :=
  do c <- config_mode mode_fixed (1024 * 1024 * 8);
  let '(c', r) := updateFromString (setCategories c [$"*"] []) s in
  do _ <- r; Ok c'.

(** trace_config.cc:212-225 [toString]. *)
Definition toString (c : config) : res bytes :=
  do m <- mode_to_string (cf_mode c);
  Ok ($"buffer-mode:" ++ m ++ $";" ++ $"buffer-size:" ++ dec (cf_size c) ++ $";"
      ++ $"enabled-categories:" ++ join_string (cf_enabled c) (chr 44) ++ $";"
      ++ $"disabled-categories:" ++ join_string (cf_disabled c) (chr 44)).

(** trace_config.cc:31-55, TraceLogConfig: the startup trace, if any. [env] is the
    value of PHOSPHOR_TRACING_START. *)
Definition setStartupTrace (_ : option config) (c : config) : option config := Some c.
Definition clearStartupTrace (_ : option config) : option config := None.
Definition fromEnvironment (l : option config) (env : option bytes) : res (option config) :=
  match env with
  | Some v => if is_nil (c_str v) then Ok l
              else do c <- fromString (c_str v); Ok (setStartupTrace l c)
  | None => Ok l
  end.
(** A TraceLogConfig is set up by a sequence of these calls; one that throws leaves
    it as it is. getStartupTrace returns the result. *)
Inductive setup_call := SetTrace (c : config) | ClearTrace | FromEnvironment (env : option bytes).
Definition setup_one (l : option config) (o : setup_call) : option config :=
  match o with
  | SetTrace c => setStartupTrace l c
  | ClearTrace => clearStartupTrace l
  | FromEnvironment env => match fromEnvironment l env with Ok l' => l' | _ => l end
  end.
Definition getStartupTrace (calls : list setup_call) : option config := fold_left setup_one calls None.
