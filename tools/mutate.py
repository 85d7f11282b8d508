#!/usr/bin/env python3
"""Apply one seeded bug to a scratch copy of the model, rebuild and report which theorems no longer prove.

usage: mutate.py mutations.json   (list of {file, old, new, definition, edit, claim})
Appends one line per mutation to seeded/LOG.jsonl when the bug is caught; prints it otherwise.
"""
import json, pathlib, re, shutil, subprocess, sys

root = pathlib.Path(__file__).resolve().parent.parent
src = root / "rocq"
scratch = pathlib.Path("/root/mut/work")
log = root / "seeded" / "LOG.jsonl"


def lemma_at(text, line):
    name = None
    for i, l in enumerate(text.splitlines(), 1):
        if i > line:
            break
        m = re.match(r"\s*(?:Lemma|Theorem|Example|Fact|Corollary|Definition|Fixpoint|Instance|Local Lemma)\s+(\w+)", l)
        if m:
            name = m.group(1)
    return name


def main():
    muts = json.load(open(sys.argv[1]))
    for m in muts:
        if scratch.exists():
            shutil.rmtree(scratch)
        shutil.copytree(src, scratch, copy_function=shutil.copy2)
        f = scratch / "theories" / m["file"]
        t = f.read_text()
        n = t.count(m["old"])
        if n != 1:
            print("BAD MUTATION (count %d): %s" % (n, m["edit"]))
            continue
        f.write_text(t.replace(m["old"], m["new"]))
        r = subprocess.run("coq_makefile -f _CoqProject -o Makefile && timeout 1500 make -k -j4 2>&1", shell=True, cwd=scratch,
                           capture_output=True, text=True)
        out = r.stdout
        failed = []
        compile_err = False
        for mm in re.finditer(r'File "\./theories/(\w+)\.v", line (\d+), characters [\d-]+:\n(?:Error|.*\nError)', out):
            fn, ln = mm.group(1), int(mm.group(2))
            lem = lemma_at((scratch / "theories" / (fn + ".v")).read_text(), ln)
            if fn + ".v" == m["file"]:
                compile_err = True
            failed.append(fn + "." + str(lem))
        if compile_err and not m.get("same_file_ok"):
            print("MODEL DOES NOT COMPILE:", m["edit"], out[-800:])
            continue
        if r.returncode == 0 or not failed:
            print("SURVIVED:", m["edit"], "| claim:", m["claim"], out[-300:] if r.returncode else "")
            continue
        # property theorems that depend on the failed files
        line = dict(definition=m["definition"], edit=m["edit"], claim=m["claim"], failed=failed,
                    tightened=m.get("tightened", []))
        with open(log, "a") as g:
            g.write(json.dumps(line) + "\n")
        print("caught:", m["edit"], "->", failed)


main()
