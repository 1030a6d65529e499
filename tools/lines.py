import ast,sys
# print start-end line of every function/class in given file(s)
for fn in sys.argv[1:]:
    t=ast.parse(open(fn).read())
    def walk(n,pre=""):
        for c in ast.iter_child_nodes(n):
            if isinstance(c,(ast.FunctionDef,ast.ClassDef)):
                print(f"{fn.split('rainbow/',1)[1]}:{c.lineno}-{c.end_lineno} {pre}{c.name}")
                walk(c,pre+c.name+".")
    walk(t)
