#!/usr/bin/env python3
import os
d=os.path.join(os.path.dirname(__file__),"..","rocq")
order=sorted(f for f in os.listdir(d+"/theories") if f.endswith(".v"))
open(d+"/_CoqProject","w").write("-Q theories Verif\n"+"".join("theories/%s\n"%f for f in order))
