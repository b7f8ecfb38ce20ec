(* Model of xtask/src/lib.rs and xtask/src/main.rs. Strings are byte strings. White space, line breaks
   and letter case are the ASCII ones; other Unicode characters of these kinds are not modelled. What
   the machine answers (environment, probe programs, command outcomes) is an input. *)
From Coq Require Import String Ascii List Bool Arith.
Import ListNotations.
Set Implicit Arguments.
Open Scope string_scope.

(* str::contains: does sub start at some position of s? *)
Fixpoint contains (s sub : string) : bool :=
  prefix sub s || match s with EmptyString => false | String _ s' => contains s' sub end.
(* char::is_whitespace on ASCII: tab, line feed, vertical tab, form feed, carriage return, space *)
Definition is_ws (c : ascii) : bool := let n := nat_of_ascii c in (((9 <=? n) && (n <=? 13)) || (n =? 32))%nat.
(* str::split_whitespace; w is the word being read *)
Fixpoint split_ws (w s : string) : list string :=
  match s with
  | EmptyString => if (w =? "") then [] else [w]
  | String c s' =>
    if is_ws c then (if (w =? "") then split_ws "" s' else w :: split_ws "" s')
    else split_ws (w ++ String c "") s'
  end.
(* slice::join(" ") *)
Fixpoint join_sp (l : list string) : string :=
  match l with [] => "" | [x] => x | x :: r => x ++ " " ++ join_sp r end.

(* BuildConfig 7-11 *)
Record build_config := mkBC { features : list string; rustflags : option string; example : string }.
(* features_arg 15-21 *)
Definition features_arg (c : build_config) : option string :=
  match features c with [] => None | l => Some (join_sp l) end.
(* the architecture branch 75-88 *)
Definition arch_part (arch cpu_flags : string) : list string * option string :=
  if contains arch "x86_64" then
    if contains cpu_flags "avx512f" then (["x86_64"; "avx512"], Some "-C target-feature=+avx512f,+fma")
    else if contains cpu_flags "avx2" then (["x86_64"; "avx2"], Some "-C target-feature=+avx2,+fma")
    else if contains cpu_flags "sse4_1" then (["x86_64"; "sse"], None)
    else (["x86_64"], None)
  else if contains arch "aarch64" || contains arch "arm64" then (["aarch64"], None)
  else ([], None).
(* compute_config 71-111; the test at 95 removes empty words *)
Definition compute_config (arch cpu_flags : string) (nproc : nat) (extra : string) : build_config :=
  let '(fa, rf) := arch_part arch cpu_flags in
  let fs := (fa ++ (if (1 <? nproc)%nat then ["parallel"] else []))%list in
  let fs := (fs ++ filter (fun f => negb (f =? "")%string) (split_ws "" extra))%list in
  mkBC fs rf (if existsb (fun f => f =? "parallel") fs then "parallel_benchmark" else "benchmark").

(* std::process::Command: program, arguments, environment settings *)
Record command := mkCmd { program : string; args : list string; env : list (string * string) }.
Definition with_features (c : build_config) (l : list string) : list string :=
  (l ++ match features_arg c with Some f => ["--features"; f] | None => [] end)%list.
Definition flags_env (c : build_config) : list (string * string) :=
  match rustflags c with Some rf => [("RUSTFLAGS", rf)] | None => [] end.
(* build_command 113-120 *)
Definition build_command c := mkCmd "cargo" (with_features c ["build"]) [].
(* test_command 122-129 *)
Definition test_command c := mkCmd "cargo" (with_features c ["test"]) [].
(* benchmark_command 143-153 *)
Definition benchmark_command c := mkCmd "cargo" (with_features c ["run"; "--example"; example c; "--release"]) (flags_env c).
(* bench_libs_command 155-165 *)
Definition bench_libs_command c := mkCmd "cargo" (with_features c ["bench"; "--manifest-path"; "kofft-bench/Cargo.toml"]) (flags_env c).
(* update_bench_readme_command 167-184 *)
Definition update_bench_readme_command c :=
  mkCmd "cargo" (with_features c ["run"; "--manifest-path"; "kofft-bench/Cargo.toml"; "--example"; "update_bench_readme"; "--release"]) (flags_env c).
(* clippy_command 131-135, fmt_command 137-141, sanity_command 186-190, web_spectrogram_command 192-199 *)
Definition clippy_command := mkCmd "cargo" ["clippy"; "--all-targets"; "--all-features"] [].
Definition fmt_command := mkCmd "cargo" ["fmt"; "--all"] [].
Definition sanity_command (input output : string) := mkCmd "cargo" ["run"; "-r"; "-p"; "sanity-check"; "--"; input; output] [].
Definition web_spectrogram_command := mkCmd "sh" ["-c";
  "cd web-spectrogram && wasm-pack build --target web && rm -rf static && mkdir -p static/pkg && cp -r pkg/* static/pkg/ && cp index.html app.mjs manifest.json sw.js static/ && cargo run -p web-spectrogram"] [].

(* str::trim on ASCII white space *)
Fixpoint trim_start (s : string) : string :=
  match s with String c s' => if is_ws c then trim_start s' else s | EmptyString => EmptyString end.
Fixpoint trim_end (s : string) : string :=
  match s with
  | EmptyString => EmptyString
  | String c s' => let t := trim_end s' in if (t =? "") && is_ws c then "" else String c t
  end.
Definition trim (s : string) : string := trim_end (trim_start s).
(* str::lines: split at line feeds, one carriage return at the end of a line removed, no last empty
   line; w is the line being read *)
Definition no_cr (w : string) : string :=
  match String.length w with
  | O => w
  | S k => match String.get k w with Some c => if (nat_of_ascii c =? 13)%nat then substring 0 k w else w | None => w end
  end.
Fixpoint lines (w s : string) : list string :=
  match s with
  | EmptyString => if (w =? "") then [] else [w]
  | String c s' => if (nat_of_ascii c =? 10)%nat then no_cr w :: lines "" s' else lines (w ++ String c "") s'
  end.
(* to_lowercase on ASCII *)
Definition lower_char (c : ascii) : ascii :=
  let n := nat_of_ascii c in if ((65 <=? n) && (n <=? 90))%nat then ascii_of_nat (n + 32) else c.
Fixpoint lowercase (s : string) : string :=
  match s with String c s' => String (lower_char c) (lowercase s') | EmptyString => EmptyString end.
(* what the machine answers: environment variables, outputs of the probe programs (None: not runnable),
   available_parallelism *)
Record machine_info := mkMachine { env_arch : option string; uname_out : option string; lscpu_out : option string;
  sysctl_out : option string; parallelism : option nat; env_features : option string }.
(* detect_arch 33-44 *)
Definition detect_arch (m : machine_info) : string :=
  let probe := match uname_out m with Some o => trim o | None => "" end in
  match env_arch m with Some a => if negb (trim a =? "") then a else probe | None => probe end.
(* detect_cpu_flags 46-63 *)
Definition detect_cpu_flags (m : machine_info) : string :=
  let rest := match sysctl_out m with Some o => o | None => "" end in
  match lscpu_out m with
  | Some o => match find (fun l => contains (lowercase l) "flags") (lines "" o) with Some l => l | None => rest end
  | None => rest
  end.
(* detect_nproc 65-69, detect_config 25-31 *)
Definition detect_config (m : machine_info) : build_config :=
  compute_config (detect_arch m) (detect_cpu_flags m)
    (match parallelism m with Some n => n | None => 1 end)
    (match env_features m with Some e => e | None => "" end).

(* xtask/src/main.rs 12-32 *)
Inductive task := TBuild | TTest | TClippy | TFmt | TAnalyze | TBenchmark | TBenchLibs | TUpdateBenchReadme | TWebSpectrogram
  | TSanity (input output : string).
(* Command::status: not started, or the exit code (None: killed by a signal) *)
Inductive outcome := NotStarted | Exited (code : option nat).
(* main 35-60: the commands started in order, and the process exit code (an io::Error from main is 1) *)
Definition exit_of (o : outcome) : nat := match o with Exited (Some k) => k | Exited None => 1 | NotStarted => 1 end.
Definition xtask_main (run : command -> outcome) (c : build_config) (t : task) : list command * nat :=
  let one cmd := ([cmd], exit_of (run cmd)) in
  match t with
  | TBuild => one (build_command c)
  | TTest => one (test_command c)
  | TClippy => one clippy_command
  | TFmt => one fmt_command
  | TAnalyze =>
      match run fmt_command with
      | NotStarted => ([fmt_command], 1)
      | Exited (Some 0) => ([fmt_command; clippy_command], exit_of (run clippy_command))
      | o => ([fmt_command], exit_of o)
      end
  | TBenchmark => one (benchmark_command c)
  | TBenchLibs => one (bench_libs_command c)
  | TUpdateBenchReadme => one (update_bench_readme_command c)
  | TWebSpectrogram => one web_spectrogram_command
  | TSanity i o => one (sanity_command i o)
  end.
