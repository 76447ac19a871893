#!/usr/bin/env python3
"""Which files of /repo meet the conditions of the theorem about compiled files
(C70, hooked_file_to_c_partial)?  Each condition is computed by Coq on the text
of the file.  A test of how much the theorem covers, not a proof.

careful   the partial evaluator is not misled (C42), match included
source    primitives fully applied, names not made by gensym
scope     no let rebinds a visible local of its function
names     locals, symbols and strings have a faithful C spelling
calm      no operand is assigned before its use

Not expanded: macros defined in other files (define-record, let/loop) and, in
lib/toc.cora, the macro ->, which is applied by hand (see run.py).
Usage: build /verif/rocq, then  python3 /verif/conformance/conditions.py
"""
import glob, os, re
import run

def exports():
    packages = {}
    for f in glob.glob(run.REPO + '/lib/*.cora'):
        t = open(f).read()
        m = re.search(r'\(package\s+"([^"]+)"', t)
        if m: packages[m.group(1)] = [x for g in re.findall(r'\(export([^)]*)\)', t) for x in g.split()]
    for f in glob.glob(run.REPO + '/lib/*.c'):
        t = open(f).read()
        l = packages.setdefault('cora/lib/' + os.path.basename(f)[:-2], [])
        l += re.findall(r'\{"([^"]+)", *\w+, *\d\}', t) + re.findall(r'RegisterAPI\(co, module, "([^"]+)"', t)
    r = ''.join('  if String.eqb p "%s" then map NS [%s] else\n' % (p, '; '.join(run.quote(x) for x in l)) for p, l in packages.items())
    return run.exports().replace('  [].\n', r + '  [].\n')

CONDITIONS = '''
Definition fuel := N.to_nat 20000.
Fixpoint inner_sets (inside : bool) (e : sexp) : list name :=
  match e with
  | SCons h t =>
      (if inside && is_sym "set" h then match t with SCons (SCons _ (SCons (SSym x) _)) _ => [x] | _ => [] end else []) ++
      inner_sets (inside || is_sym "lambda" h) h ++ inner_sets (inside || is_sym "lambda" h) t
  | _ => []
  end%list.
Definition says (b : bool) (w : string) : string := if b then w ++ " " else "NOT-" ++ w ++ " ".
Definition conditions (src : string) : string :=
  match preprocess false fuel (list_ascii_of_string src) with
  | Some (Ok (_, e)) =>
      match hmacroexpand gt exps (installed std) fuel e 1 with
      | Some (e', n) =>
          says match hboot gt exps (unchanged (installed std)) fuel e 1 with
               | Some (e1, _) =>
                   match NsModel.nsparse gt exps fuel [] "" [] e1 with
                   | Some e2 =>
                       match read_back fuel e2 with
                       | Some c => sexp_eqb (PevalSpec.show c) e2 && PevalSpec.wf c &&
                           match PevalSpec.careful std fuel [] [] c with Some c' => sexp_eqb (PevalSpec.show c') e' | None => false end
                       | None => false
                       end
                   | None => false
                   end
               | None => false
               end "careful" ++
          says (TocParse.src_ok n fuel e') "source" ++ says (TocScope.scope_ok fuel [] e' && TocScope.texts fuel e') "scope" ++
          says (literals e' && forallb GenSource.local_ok (locals fuel e') &&
                match compile fuel n e' with Some (_, gl) => forallb symbol_ok gl | None => false end) "names" ++
          says (CalmSpec.definitions fuel (inner_sets false e') e') "calm"
      | None => "not expanded"
      end
  | _ => "not read"
  end.
'''

if __name__ == '__main__':
    run.HEAD = run.HEAD.replace('HookModel.', 'HookModel GenCond GenSource TocParse TocScope PevalSpec CalmSpec HookProps.')
    body = exports() + CONDITIONS
    for f in ['init.cora'] + sorted(os.path.relpath(f, run.REPO) for f in glob.glob(run.REPO + '/lib/*.cora')):
        t = open(run.REPO + '/' + f).read()
        if f == 'lib/toc.cora': t = run.arrows(t)
        t = ''.join(c if ord(c) < 127 else '?' for c in t)  # in comments only
        body += 'Eval vm_compute in ("%s: " ++ conditions %s).\n' % (f, run.quote(t))
    for m in re.findall(r'= "(.*?)"\s+: string', run.coq(body), re.S):
        print(' '.join(m.split()))
