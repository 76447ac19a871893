#!/usr/bin/env python3
"""Compare the model with what the repository itself contains.

The Makefile of /repo has a target `bootstrap': the compiler, run on init.cora
and lib/toc.cora, must write exactly init.c and lib/toc.c.  This script lets the
MODEL of the compiler (reader, expander with the partial evaluator installed,
passes, generator: HookModel.hcompile_to_c) run on the same two texts and
compares the result with the same two files, byte by byte.

It then compiles the cases of src/eval_test.c with the model, runs the C text
under the semantics of CSpec.v and compares with the outputs given there.
The cases that use try and throw are left out: the machine of C34 has neither.

These are tests of the model, not proofs.  Nothing of /repo is run.
Usage: build /verif/rocq, then  python3 /verif/conformance/run.py
"""
import ast, os, re, resource, subprocess, sys, tempfile

REPO, THEORIES = '/repo', os.path.join(os.path.dirname(os.path.abspath(__file__)), '..', 'rocq', 'theories')
HEAD = '''From Coq Require Import List ZArith Bool String Ascii Arith.
From Verif Require Import Base StrModel ReaderModel CoreSpec TocModel TocMach TocWhole TocProps CSpec GenModel GenProps
  NumModel EmitModel MacroModel PevalModel PreModel HookModel.
Import ListNotations.
Open Scope string_scope.
Definition gs (k : nat) : bytes := list_ascii_of_string "#" ++ printNum (Z.of_nat k) ++ list_ascii_of_string "%".
Definition gt (k : nat) : string := string_of_list_ascii (gs k).
'''

def quote(s):
    return '"' + s.replace('"', '""') + '"'

def coq(text):
    with tempfile.TemporaryDirectory() as d:
        with open(os.path.join(d, 'T.v'), 'w') as f:
            f.write(HEAD + text)
        p = subprocess.run(['coqc', '-w', 'none', '-Q', THEORIES, 'Verif', 'T.v'], cwd=d, capture_output=True, text=True,
                           preexec_fn=lambda: resource.setrlimit(resource.RLIMIT_STACK, (resource.RLIM_INFINITY, resource.RLIM_INFINITY)))
    if p.returncode:
        sys.exit(p.stdout[-2000:] + p.stderr[-2000:])
    return p.stdout

def exports():
    t = open(REPO + '/init.cora').read()
    i = t.index('cora/init#*ns-export* `(') + len('cora/init#*ns-export* `(')
    packages = {'cora/init': t[i:t.index(')', i)].split(),
                'cora/lib/toc/internal': re.findall(r'\{"([^"]+)", \w+, \d\}', open(REPO + '/lib/toc/internal.c').read()),
                'cora/lib/hash-h': re.findall(r'\{"([^"]+)", \w+, \d\}', open(REPO + '/lib/hash-h.c').read()),
                'cora/lib/io': re.findall(r'coraRegisterAPI\(co, module, "([^"]+)"', open(REPO + '/lib/io.c').read())}
    r = 'Definition exps (p : string) : list name :=\n'
    for p, l in packages.items():
        r += '  if String.eqb p "%s" then map NS [%s] else\n' % (p, '; '.join(quote(x) for x in l))
    return r + '  [].\n'

def compiled(source, first):
    out = coq(exports() + 'Definition src : string := ' + quote(source) + '.\n' +
      'Definition out := Eval vm_compute in match hcompile_to_c gt exps (installed std) gs false (N.to_nat 20000) %s (list_ascii_of_string src) with\n' % first +
      '  | None => "out of fuel" | Some Trap => "trap" | Some UB => "undefined" | Some (Ok l) => string_of_list_ascii l end.\n' +
      'Set Printing Width 100000. Set Printing Depth 10000000.\nPrint out.\n')
    i = re.search(r'out =\s+"', out).end()
    return out[i:out.rindex('"\n')].replace('""', '"')

def gensyms(t):
    return [int(k) for k in re.findall(r'_35(\d+)_37', t)]

def bootstrap(cora, c, edit=lambda t: t):
    """Symbols made by gensym are numbered from where the process had got to."""
    want = open(REPO + '/' + c).read()
    got = compiled(edit(open(REPO + '/' + cora).read()), '0')
    a, b = gensyms(want), gensyms(got)
    shift = a[0] - b[0] if a and b else 0
    got = re.sub(r'_35(\d+)_37', lambda m: '_35%d_37' % (int(m.group(1)) + shift), got)
    print('%s: %d bytes, first gensym %d: %s' % (c, len(want), shift, 'the same' if got == want else 'DIFFERENT'))
    return got == want

def arrows(t):
    """The macro -> of lib/toc.cora:521-524, applied by hand to its two uses:
    macros of the user are the subject of C81, not of MacroModel.v."""
    t, n = re.subn(r'\(-> exp\s+\(parse-pass globals\)\s+closure-convert-pass\s+tailify-pass\s+liveness-analyze-pass\s+collect-lambda-pass\)',
                   '(collect-lambda-pass (liveness-analyze-pass (tailify-pass (closure-convert-pass ((parse-pass globals) exp)))))', t)
    t, m = re.subn(r'\(-> from\s+preprocess\s+macroexpand\s+\(compile globals\)\)', '((compile globals) (macroexpand (preprocess from)))', t)
    assert (n, m) == (1, 1)
    return t

RUN = '''
Inductive res := Done (v : lval) | Stuck (w : string).
Definition run (k : nat) (src : string) : res :=
  match hcompile_to_c gt (fun _ => []) (installed std) demo_gs false 200 0 (list_ascii_of_string src), preprocess false 200 (list_ascii_of_string src) with
  | Some (Ok text), Some (Ok (_, e)) =>
      match CSpec.c_file text, hmacroexpand gt (fun _ => []) (installed std) 200 e 1 with
      | Some d, Some (e1, n1) =>
          match compile 200 n1 e1 with
          | Some (fs, _) =>
              match m_start fs 30 (init no_globals 0), c_load d with
              | Some M0, Some (names, _, _) =>
                  (fix go k M := if finished M then Done (m_res M) else
                     match k with
                     | O => Stuck "steps"
                     | S k => match c_steps std d names 1 M with Some M1 => go k M1 | None => Stuck "trap" end
                     end) k M0
              | _, _ => Stuck "load"
              end
          | None => Stuck "compile"
          end
      | _, _ => Stuck "parse"
      end
  | _, _ => Stuck "text"
  end.
'''

def value(o):
    if re.fullmatch(r'-?\d+', o): return 'Done (VNum %s)' % (o if o[0] != '-' else '(%s)' % o)
    return {'true': 'Done VTrue', 'false': 'Done VFalse', '()': 'Done VNil'}.get(o, o)

def cases():
    t = open(REPO + '/src/eval_test.c').read().replace('\\\n', ' ')
    lit = r'("(?:[^"\\]|\\.)*")'
    for n, i, o in re.findall(r'\{\s*' + lit + r',\s*' + lit + r',\s*' + lit + r',?\s*\}', t):
        n, i, o = map(ast.literal_eval, (n, i, o))
        # the loop of five million turns, made shorter
        yield n, i.replace('5000000', '300'), o.replace('5000000', '300')

def evaluations():
    todo = [c for c in cases() if not re.search(r'\b(try|throw)\b', c[1])]
    out = coq(RUN + ''.join('Eval vm_compute in run (N.to_nat 3000) %s.\n' % quote(i) for _, i, _ in todo))
    got = [' '.join(x.split()) for x in re.findall(r'=\s*(.*?)\s*: res', out, re.S)]
    good = 0
    for (n, i, o), g in zip(todo, got):
        if g == value(o): good += 1
        else: print('eval_test.c: %s: expected %s, model %s' % (n, o, g))
    print('eval_test.c: %d of %d cases agree, %d left out' % (good, len(todo), len(list(cases())) - len(todo)))
    return good == len(todo)

if __name__ == '__main__':
    ok = [bootstrap('init.cora', 'init.c'), bootstrap('lib/toc.cora', 'lib/toc.c', arrows), evaluations()]
    sys.exit(0 if all(ok) else 1)
